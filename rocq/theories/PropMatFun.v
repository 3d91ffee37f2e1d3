(* Properties C55, C56 (exactness of MatrixFunction), C59 (history), C60
   (columns, scaling). *)
From Coq Require Import String.
From mathcomp Require Import all_ssreflect all_algebra zify ring.
From Verif Require Import Base ModelXtrace LemXtrace ModelTyping ModelLanczos LemLanczos SpecLanczos LemLanczos2 LemLanczos3 LemLanczos4
  ModelTqli ModelQuadrature ModelSpecial ModelOperators SpecTridiag SpecQuad SpecOperators LemSpectral LemQuad PropQuad
  PropOperators LemOperators LemOperators2.
Set Implicit Arguments.
Unset Strict Implicit.
Unset Printing Implicit Defensive.
Import Order.TTheory GRing.Theory Num.Theory.
Local Open Scope string_scope.
Local Open Scope ring_scope.

Section P.
Variable F : rcfType.
(* machine epsilon, the parameters of special.py, the LAPACK solvers *)
Variables (eps : F) (fexp flog : F -> F) (feps : F).
Hypothesis eps0 : 0 <= eps.
Variable lv : seq F -> seq F -> res (seq F).
Variable lp : seq F -> seq F -> res (seq F * seq (seq F)).
Hypothesis lapack : lapack_ok lv lp.
(* a symmetric operator of any kind *)
Variables (n : nat) (A : 'M[F]_n).
Hypothesis n0 : (0 < n)%N.
Hypothesis sA : A^T = A.
Variables (kd : okind) (dA : dty).

Local Notation mf_init := (mf_init fexp flog feps).
Local Notation mf_quad := (mf_quad eps lv lp A kd dA).
Local Notation mf_matvec := (mf_matvec eps lv lp A kd dA).
Local Notation mf_run := (mf_run eps lv lp A kd dA).
(* the tolerance of the early stop; the first Lanczos vector *)
Local Notation tol := (Num.sqrt n%:R * (1 / 10%:R ^+ 8)).
Local Notation q0 x := ((vnorm (vec n x))^-1 *: vec n x).

(* M0 was constructed for this operator with a 32- or 64-bit float dtype, and
   the native code can apply the operator *)
Definition built (M0 : mfobj F) : Prop :=
  exists o f kw deg orth d, [/\ square_shape o n, mf_init o f kw deg orth d = Ok M0, d <> OtherDtype &
    o_matvec o \/ forall e, kd <> KObject e].

(* M is M0 after some calls; no stale Lanczos vectors are looked at *)
Definition after_calls (M0 M : mfobj F) : Prop := exists h, mf_run M0 h = Some M.
Definition unstale (M0 M : mfobj F) : Prop := M = M0 \/ mf_orth M0 <= 2.

(* f applies g to every entry *)
Definition applies (f : mfun F) (g : F -> F) : Prop := forall xs, fvals (f xs) = [seq Fin (g t) | t <- xs].

Lemma built_ok M0 : built M0 -> [/\ mf_wf n M0, mf_live kd M0 & forall y, y \in mf_Q M0 -> y = 0].
Proof.
case=> o [f [kw [deg [orth [d [sq E hd hc]]]]]].
have [_ dg _] := (C62_accepts_iff fexp flog feps o f kw deg orth d).1 (ex_intro _ M0 E).
have [[h1 h2] [h3 _] [h4 h5] [h6 [h7 h8]] [h9 [h10 _]]] := C62_fields sq E; split.
- by split; rewrite ?h1 ?h4 ?h5 ?h6 ?h7 ?h8 ?size_nseq //; lia.
- by split; rewrite ?h9 ?h10.
- by move=> y; rewrite h8 mem_nseq => /andP[_ /eqP].
Qed.

Lemma calls_ok M0 M : built M0 -> after_calls M0 M -> [/\ mf_wf n M, mf_live kd M & same_params M0 M].
Proof.
move=> /built_ok[W L _] [h /run_keeps [S K]]; split=> //; first exact: K.
by case: S => _ _ _ e1 e2; rewrite /mf_live e1 e2.
Qed.

Lemma unstale_ok M0 M : built M0 -> after_calls M0 M -> unstale M0 M -> mf_clean M.
Proof.
move=> B C U; have [_ _ [_ _ e _ _]] := calls_ok B C; case: U => [->|U]; last by left; rewrite e.
by right; have [] := built_ok B.
Qed.

(* ---- C55 --------------------------------------------------------------------------- *)
(* Gauss quadrature: f a polynomial with at most 2 deg coefficients and no early
   stop, or any polynomial when the Lanczos iteration ends in an invariant
   subspace *)
Theorem C55_gauss M0 M x s (p : {poly F}) : built M0 -> after_calls M0 M -> unstale M0 M -> size x = n ->
  applies (mf_fun M0) (fun t => p.[t]) -> stop_at A (q0 x) tol (mf_deg M0) s ->
  (s = mf_deg M0 /\ (size p <= (mf_deg M0).*2)%N) \/ lb A (q0 x) s = 0 ->
  (mf_quad M [:: x]).1 = Ret [:: Fin (qform (polymx p A) (vec n x))].
Proof.
move=> B C U sx hf hs hp; have [W L S] := calls_ok B C; have K := unstale_ok B C U.
case: S => -[e1 e2] e3 _ _ _; rewrite -e3 in hs hp; rewrite -e2 in hf.
have [w [Y [[_ eig] E]]] := quad1_run lapack eps0 n0 sA dA W L K sx hs.
rewrite /= E; have /andP[d0 _] := wf_deg W; have eig' : is_eigh (mfT (mf_after A M x s)) w Y := eig.
by rewrite (@quad_value_poly _ _ M (mf_after A M x s) x w Y _ p (Ordinal d0) erefl eig' hf) //= (run_quad eps0 n0 sA W hs).
Qed.

(* any function of the matrix when the iteration ends in an invariant subspace;
   in particular after n steps *)
Lemma full_exact x s d : stop_at A (q0 x) tol d s -> s = n -> lb A (q0 x) s = 0.
Proof.
move=> hs sn; have ub := stop_ub n0 hs; have s0 : (0 < s)%N by lia.
have [v0|v0] := eqVneq (vec n x) 0.
  by rewrite v0 scaler0 /lb tri0.
have Q1 := @QTQ F n A (q0 x) sA (start_unit v0) s ub; have Q2 := @QT_lr F n A (q0 x) sA (start_unit v0) s ub s0.
rewrite -(prednK s0) lbS; apply/eqP; rewrite vnorm_eq0; apply/eqP.
move: Q1 Q2; move: (Qm A (q0 x) s) (lr A (q0 x) s.-1); rewrite sn => Q r Q1 Q2.
by rewrite -[r]mul1mx -(mulmx1C Q1) -mulmxA Q2 mulmx0.
Qed.

Theorem C55_exact M0 M x s (g : F -> F) (B : 'M[F]_n) : built M0 -> after_calls M0 M -> unstale M0 M -> size x = n ->
  applies (mf_fun M0) g -> is_mxfun g A B -> stop_at A (q0 x) tol (mf_deg M0) s ->
  s = n \/ lb A (q0 x) s = 0 ->
  (mf_quad M [:: x]).1 = Ret [:: Fin (qform B (vec n x))].
Proof.
move=> H C U sx hf [V [l [o1 o2 o3]]] hs hx; have [W L S] := calls_ok H C; have K := unstale_ok H C U.
have {}hx : lb A (q0 x) s = 0 by case: hx => [/(full_exact hs)|].
case: S => -[e1 e2] e3 _ _ _; rewrite -e3 in hs; rewrite -e2 in hf.
have [w [Y [[_ eig] E]]] := quad1_run lapack eps0 n0 sA dA W L K sx hs.
have [p hp] := interpolate g ([seq l 0 j | j <- enum 'I_n] ++ w).
have hpw t : t \in w -> p.[t] = g t by move=> h; apply: hp; rewrite mem_cat h orbT.
have hpl j : p.[l 0 j] = g (l 0 j) by apply: hp; rewrite mem_cat map_f ?mem_enum.
have -> : B = polymx p A by rewrite (mxfun_poly o1 o2 o3 hpl).
rewrite /= E; have /andP[d0 _] := wf_deg W; have eig' : is_eigh (mfT (mf_after A M x s)) w Y := eig.
rewrite (@quad_value_poly _ _ M (mf_after A M x s) x w Y _ p (Ordinal d0) erefl eig' hf) //= (run_quad eps0 n0 sA W hs) //.
by right.
Qed.

(* ---- C56 --------------------------------------------------------------------------- *)
Theorem C56_krylov M0 M x s (p : {poly F}) : built M0 -> after_calls M0 M -> size x = n ->
  applies (mf_fun M0) (fun t => p.[t]) -> stop_at A (q0 x) tol (mf_deg M0) s ->
  (s = mf_deg M0 /\ (size p <= mf_deg M0)%N) \/ lb A (q0 x) s = 0 ->
  (mf_matvec M x).1 = Ret [seq Fin ((polymx p A *m vec n x) i 0) | i <- enum 'I_n].
Proof.
move=> B C sx hf hs hp; have [W L S] := calls_ok B C.
case: S => -[e1 e2] e3 _ _ _; rewrite -e3 in hs hp; rewrite -e2 in hf.
have [w [Y [[_ eig] E]]] := matvec_run lapack eps0 n0 sA dA W L sx hs.
rewrite E; have /andP[d0 _] := wf_deg W; have eig' : is_eigh (mfT (mf_after A (zero_Q M) x s)) w Y := eig.
rewrite (@matvec_value_poly _ _ M (mf_after A (zero_Q M) x s) x w Y _ p (Ordinal d0) erefl erefl eig' hf) //.
by rewrite (@run_fun F eps eps0 n n0 A (zero_Q M) x s (zero_wf W) hs p (Ordinal d0) erefl hp) /cseq -map_comp.
Qed.

Theorem C56_exact M0 M x s (g : F -> F) (B : 'M[F]_n) : built M0 -> after_calls M0 M -> size x = n ->
  applies (mf_fun M0) g -> is_mxfun g A B -> stop_at A (q0 x) tol (mf_deg M0) s ->
  s = n \/ lb A (q0 x) s = 0 ->
  (mf_matvec M x).1 = Ret [seq Fin ((B *m vec n x) i 0) | i <- enum 'I_n].
Proof.
move=> H C sx hf [V [l [o1 o2 o3]]] hs hx; have [W L S] := calls_ok H C.
have {}hx : lb A (q0 x) s = 0 by case: hx => [/(full_exact hs)|].
case: S => -[e1 e2] e3 _ _ _; rewrite -e3 in hs; rewrite -e2 in hf.
have [w [Y [[_ eig] E]]] := matvec_run lapack eps0 n0 sA dA W L sx hs.
have [p hp] := interpolate g ([seq l 0 j | j <- enum 'I_n] ++ w).
have hpw t : t \in w -> p.[t] = g t by move=> h; apply: hp; rewrite mem_cat h orbT.
have hpl j : p.[l 0 j] = g (l 0 j) by apply: hp; rewrite mem_cat map_f ?mem_enum.
have -> : B = polymx p A by rewrite (mxfun_poly o1 o2 o3 hpl).
rewrite E; have /andP[d0 _] := wf_deg W; have eig' : is_eigh (mfT (mf_after A (zero_Q M) x s)) w Y := eig.
rewrite (@matvec_value_poly _ _ M (mf_after A (zero_Q M) x s) x w Y _ p (Ordinal d0) erefl erefl eig' hf) //.
by rewrite (@run_fun F eps eps0 n n0 A (zero_Q M) x s (zero_wf W) hs p (Ordinal d0) erefl (or_intror hx)) /cseq -map_comp.
Qed.

Lemma run_cat h1 h2 M0 : mf_run M0 (h1 ++ h2) = obind (fun M => mf_run M h2) (mf_run M0 h1).
Proof. by elim: h1 M0 => [//|c h IH] M0 /=; case: (mf_call _ _ _ _ _ _ _ _) => -[||e|ys] M2 //=. Qed.

(* several columns *)
Theorem C55_columns M0 M X (g : F -> F) (B : 'M[F]_n) : built M0 -> after_calls M0 M -> mf_orth M0 <= 2 ->
  applies (mf_fun M0) g ->
  (forall x, x \in X -> size x = n /\ exists s, stop_at A (q0 x) tol (mf_deg M0) s /\
    ((s = mf_deg M0 /\ exists p : {poly F}, [/\ g =1 (fun t => p.[t]), (size p <= (mf_deg M0).*2)%N & B = polymx p A]) \/
     (s = n \/ lb A (q0 x) s = 0) /\ is_mxfun g A B)) ->
  (mf_quad M X).1 = Ret [seq Fin (qform B (vec n x)) | x <- X].
Proof.
move=> H [h C] O hf; elim: X M h C => [//|x X IH] M h C hX.
have [sx [s [hs hc]]] := hX x (mem_head _ _).
have E : (mf_quad M [:: x]).1 = Ret [:: Fin (qform B (vec n x))].
  case: hc => [[sd [p [hg sp ->]]]|[hx hB]].
    apply: (C55_gauss (s := s) H _ _ sx _ hs); [by exists h|by right| |by left].
    by move=> xs; rewrite hf; apply: eq_map => t; rewrite hg.
  by apply: (C55_exact (s := s) H _ _ sx hf hB hs hx); [exists h|right].
move: E => /=; case E1: (mf_quad1 eps lv lp A kd dA M x) => [[||e|y] M1] //= -[Ey]; subst y.
have C1 : mf_run M0 (h ++ [:: CQuad [:: x]]) = Some M1.
  by rewrite run_cat C /= E1.
have := IH M1 _ C1 _; case: (mf_quad M1 X) => r M2 /= ->; first by [].
by move=> z hz; apply: hX; rewrite in_cons hz orbT.
Qed.

(* ---- C59 --------------------------------------------------------------------------- *)
(* nothing stale survives a run without early stop *)
Lemma after_same M1 M2 x : mf_wf n M1 -> mf_wf n M2 -> same_params M1 M2 ->
  let s := mf_deg M1 in
  [/\ take s (mf_alpha (mf_after A M1 x s)) = take s (mf_alpha (mf_after A M2 x s)),
      take s (mf_beta (mf_after A M1 x s)) = take s (mf_beta (mf_after A M2 x s)) &
      mf_Q (mf_after A M1 x s) = mf_Q (mf_after A M2 x s)].
Proof.
move=> W1 W2 [_ e _ _ _] s; have h1 := wf_al W1; have h2 := wf_al W2; have h3 := wf_be W1; have h4 := wf_be W2.
rewrite e -/s in h2 h4; rewrite -/s in h1 h3; split.
- have s1 : size (take s (mf_alpha (mf_after A M1 x s))) = s by rewrite size_takel // size_mkseq h1.
  have s2 : size (take s (mf_alpha (mf_after A M2 x s))) = s by rewrite size_takel // size_mkseq h2.
  apply: (@eq_from_nth _ 0); first by rewrite s1 s2.
  by move=> i; rewrite s1 => hi; rewrite !nth_take // !nth_mkseq ?h1 ?h2 ?hi // ltnS ltnW.
- have s1 : size (take s (mf_beta (mf_after A M1 x s))) = s by rewrite size_takel // size_mkseq h3.
  have s2 : size (take s (mf_beta (mf_after A M2 x s))) = s by rewrite size_takel // size_mkseq h4.
  apply: (@eq_from_nth _ 0); first by rewrite s1 s2.
  by move=> i; rewrite s1 => hi; rewrite !nth_take // !nth_mkseq ?h3 ?h4 ?(ltnW hi) // ltnS ltnW.
by rewrite /= e; apply: flatV_ext => c hc; rewrite hc.
Qed.

Lemma same_live (M1 M2 : mfobj F) : mf_live kd M1 -> same_params M1 M2 -> mf_live kd M2.
Proof. by move=> L [_ _ _ e1 e2]; rewrite /mf_live e1 e2. Qed.

Lemma quad1_same M1 M2 x : mf_wf n M1 -> mf_wf n M2 -> same_params M1 M2 -> mf_live kd M1 -> mf_orth M1 <= 2 -> size x = n ->
  stop_at A (q0 x) tol (mf_deg M1) (mf_deg M1) -> (mf_quad1 eps lv lp A kd dA M1 x).1 = (mf_quad1 eps lv lp A kd dA M2 x).1.
Proof.
move=> W1 W2 S L O sx hs; have L2 := same_live L S; have [[_ ef] ed eo _ _] := S.
have [w1 [Y1 [[a1 _] ->]]] := quad1_run lapack eps0 n0 sA dA W1 L (or_introl O) sx hs.
have C2 : mf_clean M2 by left; rewrite eo.
have hs2 : stop_at A (q0 x) tol (mf_deg M2) (mf_deg M1) by rewrite ed.
have [w2 [Y2 [[a2 _] ->]]] := quad1_run lapack eps0 n0 sA dA W2 L2 C2 sx hs2.
have [t1 t2 _] := after_same x W1 W2 S.
move: a2; rewrite (_ : mf_deg (mf_after A M2 x (mf_deg M1)) = mf_deg M1) // -t1 -t2.
rewrite (_ : mf_deg M1 = mf_deg (mf_after A M1 x (mf_deg M1))) // a1 => -[<- <-].
by rewrite /= /quad_value ef.
Qed.

(* quad, when at most two earlier Lanczos vectors are used for re-orthogonalisation *)
Theorem C59_quad M0 M X : built M0 -> after_calls M0 M -> mf_orth M0 <= 2 ->
  (forall x, x \in X -> size x = n /\ stop_at A (q0 x) tol (mf_deg M0) (mf_deg M0)) ->
  (mf_quad M X).1 = (mf_quad M0 X).1.
Proof.
move=> H C O; have [W L S] := calls_ok H C; have [W0 L0 _] := built_ok H.
have [d [Ed Eo]] : exists d, d = mf_deg M0 /\ mf_orth M0 <= 2 by exists (mf_deg M0).
rewrite -Ed => hX.
have {W L S W0 L0 Eo O C} : [/\ mf_wf n M /\ mf_wf n M0, same_params M0 M, mf_live kd M0, mf_orth M0 <= 2 & d = mf_deg M0] by [].
move: M M0 hX {H Ed}; elim: X => [//|x X IH] M M0 hX [[W W0] S L O Ed] /=.
have [sx hs] := hX x (mem_head _ _); rewrite Ed in hs.
have E := quad1_same W0 W S L O sx hs.
have [K1 K2] := quad1_keeps lv lp eps A kd dA M0 x; have [K3 K4] := quad1_keeps lv lp eps A kd dA M x.
case: (mf_quad1 _ _ _ _ _ _ M0 x) E K1 K2 => r0 M0' /= E K1 K2; case: (mf_quad1 _ _ _ _ _ _ M x) E K3 K4 => r M' /= E K3 K4.
subst r0; case: r => //= y.
have := IH M' M0' _ _; case: (mf_quad M' X) => r1 M1; case: (mf_quad M0' X) => r2 M2 /= -> //.
  by move=> z hz; apply: hX; rewrite in_cons hz orbT.
have [_ dd oo _ _] := K1; split; [by split; auto| |exact: same_live L K1|by rewrite oo|by rewrite dd].
case: S => -[s1 s2] s3 s4 s5 s6; case: K1 => -[a1 a2] a3 a4 a5 a6; case: K3 => -[b1 b2] b3 b4 b5 b6.
by split; [split|..]; congruence.
Qed.

(* matvec, always *)
Theorem C59_matvec M0 M x : built M0 -> after_calls M0 M -> size x = n ->
  stop_at A (q0 x) tol (mf_deg M0) (mf_deg M0) ->
  (mf_matvec M x).1 = (mf_matvec M0 x).1.
Proof.
move=> H C sx hs; have [W L S] := calls_ok H C; have [W0 L0 _] := built_ok H.
have [[_ ef] ed eo _ _] := S.
have hs2 : stop_at A (q0 x) tol (mf_deg M) (mf_deg M0) by rewrite ed.
have [w1 [Y1 [[a1 _] ->]]] := matvec_run lapack eps0 n0 sA dA W0 L0 sx hs.
have [w2 [Y2 [[a2 _] ->]]] := matvec_run lapack eps0 n0 sA dA W L sx hs2.
have [t1 t2 t3] := @after_same (zero_Q M0) (zero_Q M) x (zero_wf W0) (zero_wf W) S.
move: a2; rewrite (_ : mf_deg (mf_after A (zero_Q M) x (mf_deg M0)) = mf_deg (zero_Q M0)) // -t1 -t2.
rewrite (_ : mf_deg (zero_Q M0) = mf_deg (mf_after A (zero_Q M0) x (mf_deg (zero_Q M0)))) // a1 => -[<- <-].
by rewrite /matvec_value ef ed -t3.
Qed.

(* an exact early stop is harmless for functions that are finite everywhere *)
Lemma mxfun_exists (g : F -> F) : exists B, is_mxfun g A B.
Proof.
have [U [l [h1 h2]]] := spectral sA.
by exists (U *m diag_mx (\row_j g (l 0 j)) *m U^T), U, l.
Qed.

Theorem C59_exact_stop M0 M x s (g : F -> F) : built M0 -> after_calls M0 M -> size x = n ->
  applies (mf_fun M0) g -> stop_at A (q0 x) tol (mf_deg M0) s -> lb A (q0 x) s = 0 ->
  (mf_matvec M x).1 = (mf_matvec M0 x).1 /\
  (mf_orth M0 <= 2 -> (mf_quad M [:: x]).1 = (mf_quad M0 [:: x]).1).
Proof.
move=> H C sx hf hs hl; have [B hB] := mxfun_exists g; have C0 : after_calls M0 M0 by exists [::].
have hl' : s = n \/ lb A (q0 x) s = 0 by right.
split; first by rewrite (C56_exact H C sx hf hB hs hl') (C56_exact H C0 sx hf hB hs hl').
by move=> O; rewrite (C55_exact H C (or_intror O) sx hf hB hs hl') (C55_exact H C0 (or_introl erefl) sx hf hB hs hl').
Qed.

(* ---- C60 --------------------------------------------------------------------------- *)
(* one value per column *)
Theorem C60_size X : forall M ys M', mf_quad M X = (Ret ys, M') -> size ys = size X.
Proof.
elim: X => [|x X IH] M ys M' /=; first by case=> <-.
case: (mf_quad1 _ _ _ _ _ _ M x) => -[||e|y] M1 //; case E: (mf_quad M1 X) => [[||e|zs] M2] //= [<- _].
by rewrite /= (IH _ _ _ E).
Qed.

(* every column is treated as a call of its own on the object the previous columns left *)
Theorem C60_columns M X x : (mf_quad M (rcons X x)).1 =
  obnd (mf_quad M X).1 (fun ys => obnd (mf_quad (mf_quad M X).2 [:: x]).1 (fun y => Ret (cat ys y))).
Proof.
elim: X M => [|z X IH] M /=.
  by case: (mf_quad1 _ _ _ _ _ _ M x) => -[||e|y] M1.
case: (mf_quad1 _ _ _ _ _ _ M z) => -[||e|y] M1 //=; have := IH M1.
case: (mf_quad M1 (rcons X x)) => r M2 /= ->; case: (mf_quad M1 X) => -[||e|ys] M3 //=.
by case: (mf_quad1 _ _ _ _ _ _ M3 x) => -[||e|u] M4.
Qed.

Lemma xmul_scale (c r : F) (u : xnum F) : 0 < c -> 0 <= r -> xmul u (Fin (c * r)) = xmul (Fin c) (xmul u (Fin r)).
Proof.
move=> c0 r0; have c1 : (c < 0) = false by rewrite lt_gtF.
have S (e : F) : xinf_of_sign (c * e) = match xinf_of_sign e with Fin y => Fin (c * y) | PInf => xinf_of_sign c | NInf => xinf_of_sign (- c) | NaN => NaN end.
  rewrite /xinf_of_sign mulf_eq0 gt_eqF //= pmulr_rgt0 //.
  by case: ifP => // _; case: ifP => //= _; rewrite ?oppr_eq0 ?gt_eqF ?c0 // oppr_gt0 c1.
case: u => [a| | |] //=; first by rewrite mulrCA.
by rewrite -mulrN S.
Qed.

Theorem C60_scale M0 M x (c : F) : built M0 -> after_calls M0 M -> unstale M0 M -> size x = n -> c != 0 ->
  (mf_quad M [:: [seq c * t | t <- x]]).1 =
  obnd (mf_quad M [:: x]).1 (fun ys => Ret [seq xmul (Fin (c ^+ 2)) y | y <- ys]).
Proof.
move=> H C U sx c0; have [W L S] := calls_ok H C; have K := unstale_ok H C U.
have /andP[d0 _] := wf_deg W.
have [s hs] := stop_exists A (q0 x) tol d0.
have ex : cvec n [seq c * t | t <- x] = c *: cvec n x.
  by apply/colP => i; rewrite !mxE (nth_map 0) // sx.
have E : start (c *: cvec n x) = start (cvec n x) \/ start (c *: cvec n x) = - start (cvec n x).
  case: (ltrgtP c 0) c0 => // cs _; last by left; exact: start_scale.
  by right; rewrite -[c]opprK scaleNr start_neg start_scale // oppr_gt0.
have Ela j : la A (start (c *: cvec n x)) j = la A (start (cvec n x)) j by case: E => ->; rewrite ?la_neg.
have Elb j : lb A (start (c *: cvec n x)) j = lb A (start (cvec n x)) j.
  by case: E => ->; rewrite /lb ?tri_neg //; case: (tri _ _ _) => [[]].
have sx' : size [seq c * t | t <- x] = n by rewrite size_map.
have hs' : stop_at A (start (cvec n [seq c * t | t <- x])) tol (mf_deg M) s.
  by rewrite ex; case: hs => s1 s2 s3; split=> // [i hi|]; rewrite Elb //; exact: s2.
have [w1 [Y1 [[a1 _] E1]]] := quad1_run lapack eps0 n0 sA dA W L K sx hs.
have [w2 [Y2 [[a2 _] E2]]] := quad1_run lapack eps0 n0 sA dA W L K sx' hs'.
have T1 : mf_alpha (mf_after A M [seq c * t | t <- x] s) = mf_alpha (mf_after A M x s).
  by rewrite /= ex; apply: eq_mkseq => i; rewrite Ela.
have T2 : mf_beta (mf_after A M [seq c * t | t <- x] s) = mf_beta (mf_after A M x s).
  by rewrite /= ex; apply: eq_mkseq => i; rewrite Elb.
move: a2; rewrite T1 T2 (_ : mf_deg (mf_after A M [seq c * t | t <- x] s) = mf_deg (mf_after A M x s)) // a1 => -[ew eY].
subst w2 Y2; rewrite /= E1 E2 /quad_value; case: (np_mul _ _) => [v|] //=.
by rewrite ex vnormZ exprMn -normrX ger0_norm ?sqr_ge0 // xmul_scale // ?sqr_ge0 // exprn_even_gt0.
Qed.
End P.

Print Assumptions C55_gauss.
Print Assumptions C55_exact.
Print Assumptions C56_krylov.
Print Assumptions C56_exact.
Print Assumptions C55_columns.
Print Assumptions C59_quad.
Print Assumptions C59_matvec.
Print Assumptions C59_exact_stop.
Print Assumptions C60_size.
Print Assumptions C60_columns.
Print Assumptions C60_scale.
