(* C94, C98 for a MatrixFunction: tail bounds of stochastic Lanczos quadrature. *)
From Coq Require Import String.
From mathcomp Require Import all_ssreflect all_algebra zify ring.
From Verif Require Import Base Spec ModelStats LemStats PropStats ModelEstimators LemEstimators LemEst2
  PropEstimators ModelTyping ModelRandom ModelTrace LemTrace PropTrace PropUnbiased PropTail PropDiag.
From Verif Require Import ModelXtrace LemXtrace ModelLanczos LemLanczos SpecLanczos LemLanczos2 LemLanczos3 LemLanczos4
  ModelTqli ModelQuadrature ModelSpecial ModelOperators SpecTridiag SpecQuad SpecOperators LemSpectral LemQuad PropQuad
  PropOperators LemOperators LemOperators2 PropMatFun PropMatFun2 PropMatFun3 PropMatFun4 PropAccuracy ModelSLQ PropSLQ PropSLQ2.
From Verif Require Import ModelHutchpp ModelToeplitz ModelOpApps LemOpApps PropOpApps PropOpApps2 PropVariance.
Set Implicit Arguments.
Unset Strict Implicit.
Unset Printing Implicit Defensive.
Import Order.TTheory GRing.Theory Num.Theory.
Local Open Scope ring_scope.

Section Tapes.
Variable F : rcfType.
Variables (X : finType) (u : X -> rat) (flip : X -> X).
Hypothesis uP : forall x, 0 <= u x < 1.
Hypothesis flipK : involutive flip.
Hypothesis flipP : forall x, (u (flip x) < 1 / 2%:R) = ~~ (u x < 1 / 2%:R).
Hypothesis X0 : (0 < #|X|)%N.
Variables (tppf : F -> nat -> F) (zq : F -> F).
Variables (eps : F) (fexp flog : F -> F) (feps : F).
Hypothesis eps0 : 0 <= eps.
Variable lv : seq F -> seq F -> res (seq F).
Variable lp : seq F -> seq F -> res (seq F * seq (seq F)).
Hypothesis lapack : lapack_ok lv lp.
Variable N : nat.
Variable A : 'M[F]_N.
Hypothesis n0 : (0 < N)%N.
Hypothesis sA : A^T = A.
Variables (kd : okind) (dA : dty) (gauss : seq X -> F * seq X).

Local Notation tol := (Num.sqrt N%:R * (1 / 10%:R ^+ 8)).
Local Notation q0 v := ((vnorm v)^-1 *: v).
Local Notation built := (built fexp flog feps N kd).
Local Notation S := (iso_sampler (tape_unif u) gauss N Rademacher).
Local Notation slq := (@slq F (seq X) tppf zq eps lv lp N A kd dA).
Local Notation draws full cb batch n := (nbatch n (eff full cb batch) * eff full cb batch)%N.
Local Notation mop := (mf_linop eps lv lp A kd dA).

Lemma fraction_le L (P Q : seq X -> bool) : (forall t : L.-tuple X, P t -> Q t) -> fraction F L P <= fraction F L Q.
Proof.
move=> h; rewrite !fractionE; apply: average_le => t.
by have := h t; case: (P t) => [->//|_]; rewrite ler0n.
Qed.

Lemma mxfun_sym (f : F -> F) (B : 'M[F]_N) : is_mxfun f A B -> B^T = B.
Proof. by case=> V [l [_ _ ->]]; rewrite !trmx_mul trmxK tr_diag_mx mulmxA. Qed.

(* hutch on a MatrixFunction: the deterministic error 2dN plus e is exceeded on few tapes *)
Theorem C94_slq_tail fuel M0 batch n r full cb L D (f : F -> F) (B : 'M[F]_N) (p : {poly F}) (d : F) :
  built M0 -> mf_orth M0 <= 2 -> (forall v, signs v -> stop_at A (q0 v) tol (mf_deg M0) (mf_deg M0)) ->
  range_in A D -> applies_on D (mf_fun M0) f -> is_mxfun f A B ->
  (size p <= (mf_deg M0).*2)%N -> (forall t, D t -> `|f t - p.[t]| <= d) ->
  0 < batch -> 0 < n -> (nbatch n (eff full cb batch) < fuel)%N -> (draws full cb batch n * N <= L)%N ->
  exists val : seq X -> F,
   (forall t : L.-tuple X, slq_value (slq fuel M0 batch S (CCount F n) r full cb (t : seq X)) (val t)) /\
   forall e : F, 0 < e -> fraction F L (fun t => 2%:R * d * N%:R + e <= `|val t - \tr B|) <=
     2%:R * (\sum_i \sum_(j | j != i) B i j ^+ 2) / ((draws full cb batch n)%:R * e ^+ 2).
Proof.
move=> H O hs hD hf hB sp hp b0 m0 hl hL.
have R (t : L.-tuple X) := C93_run_error tppf zq eps0 lapack n0 sA dA gauss (tapeP uP) r (t : seq X) H O hs hD hf hB sp hp b0 m0 hl.
have [val [hv av]] := C94_tail uP flipK flipP X0 gauss tppf zq r n0 b0 m0 hl hL (mxfun_sym hB).
have [t|w hw] := @choose F X L (fun t z => slq_value (slq fuel M0 batch S (CCount F n) r full cb t) z /\ `|z - val t| <= 2%:R * d * N%:R).
  by have [z [y [h1 h2 h3]]] := R t; exists z; rewrite (value_inj (hv t) h2).
exists w; split=> [t|e e0]; first by case: (hw t).
apply: le_trans (av e e0); apply: fraction_le => t h; have [_ h'] := hw t.
rewrite -(ler_add2l (2%:R * d * N%:R)); apply: (le_trans h).
have -> : w t - \tr B = (w t - val t) + (val t - \tr B) by rewrite addrA subrK.
by apply: (le_trans (ler_norm_add _ _)); rewrite ler_add2r.
Qed.

(* diag on a MatrixFunction, all entries at once *)
Theorem C98_mf_diag_tail fuel M0 n full cb r L D (f : F -> F) (B : 'M[F]_N) (p : {poly F}) (d : F) :
  built M0 -> (forall v, signs v -> stop_at A (q0 v) tol (mf_deg M0) (mf_deg M0)) ->
  range_in A D -> applies_on D (mf_fun M0) f -> is_mxfun f A B ->
  (size p <= mf_deg M0)%N -> (forall t, D t -> `|f t - p.[t]| <= d) ->
  (0 < n)%N -> (n < fuel)%N -> (n * N <= L)%N ->
  exists val : seq X -> 'I_N -> F,
   (forall t : L.-tuple X, exists out M',
      odiag tppf zq mop fuel M0 S (CCount F n%:Z) full cb r (t : seq X) = Some (Ret (out, M')) /\
      pyval_x N (ret_value (run_ret out)) = [seq Fin (val t i) | i <- enum 'I_N]) /\
   forall e : F, 0 < e -> fraction F L (fun t => [exists i, 2%:R * d * Num.sqrt N%:R + e <= `|val t i - B i i|]) <=
     2%:R * (\sum_i \sum_(j | j != i) B i j ^+ 2) / (n%:R * e ^+ 2).
Proof.
move=> H hs hD hf hB sp hp k0 hl hL.
have ok := @iso_sample_ok F (seq X) (tape_unif u) gauss N Rademacher.
have sg g : signs (head 0 (S 1%N g).1).
  have : head 0 (S 1%N g).1 \in (S 1%N g).1.
    by have := ok 1%N g; case: (S 1%N g).1 => //= v vs _; rewrite inE eqxx.
  by move/(rademacher_probe (tapeP uP)).
have C0 : after_calls eps lv lp A kd dA M0 M0 by exists [::].
have [val [hv av]] := C98_diag_tail uP flipK flipP X0 gauss tppf zq B full cb r n0 k0 hl hL.
pose near (t : seq X) (y : 'I_N -> F) := (exists out M',
   odiag tppf zq mop fuel M0 S (CCount F n%:Z) full cb r t = Some (Ret (out, M')) /\
   pyval_x N (ret_value (run_ret out)) = [seq Fin (y i) | i <- enum 'I_N]) /\
   forall i, `|y i - val t i| <= 2%:R * d * Num.sqrt N%:R.
have R (t : L.-tuple X) : exists y : {ffun 'I_N -> F}, near t y.
  have [out [M' [E ep]]] := C97_diag_error_count tppf zq eps0 lapack n0 sA H hs hD hf hB sp hp ok sg full cb r (t : seq X) C0 hl.
  have [_ [_]] := C97_diag_error eps0 lapack n0 sA H hs hD hf hB sp hp ok sg C0 E.
  have so : size (run_probes out) = n by rewrite ep size_dprobes.
  rewrite so k0 => /(_ isT) [y [ey hy]]; exists [ffun i => y i]; split.
    by exists out, M'; split=> //; rewrite ey; apply: eq_map => i; rewrite ffunE.
  move=> i; rewrite ffunE; have [out' [E' ev]] := hv t.
  have [ev' ep'] := C40_diag_value ok n0 E'.
  have [out2 [E2 hs2]] := @C81_diag_count F (seq X) tppf zq N fuel B S n%:Z full cb r t ok n0 hl.
  rewrite E' in E2; case: E2 hs2 => <- hs2; rewrite /pos_part in hs2; rewrite hs2 in ep'.
  have Evs : run_probes out' = run_probes out by rewrite ep ep'.
  rewrite Evs ev in ev'; suff -> : val t i = avg [seq (\sum_(v <- take k.+1 (run_probes out)) (B *m v) i 0 * v i 0) /
     (\sum_(v <- take k.+1 (run_probes out)) v i 0 ^+ 2) | k <- iota 0 n] by exact: hy.
  case: (run_probes out) so ev' => [s0|v vs so]; first by rewrite -s0 in k0.
  have hi : i \in enum 'I_N by rewrite mem_enum.
  by move/eq_in_map/(_ i hi) => -[->]; rewrite -so.
have [w hw] := fin_all_exists R.
pose wt (t : seq X) (i : 'I_N) := if insub t is Some t' then w t' i else 0.
have wtE (t : L.-tuple X) : wt t = (fun i => w t i) by rewrite /wt valK.
exists wt; split=> [t|e e0]; first by rewrite wtE; case: (hw t).
apply: le_trans (av e e0); apply: fraction_le => t /existsP[i hi]; apply/existsP; exists i.
have [_ /(_ i) h'] := hw t; rewrite wtE in hi.
rewrite -(ler_add2l (2%:R * d * Num.sqrt N%:R)); apply: (le_trans hi).
have -> : w t i - B i i = (w t i - val t i) + (val t i - B i i) by rewrite addrA subrK.
by apply: (le_trans (ler_norm_add _ _)); rewrite ler_add2r.
Qed.
End Tapes.

(* the 3 x 3 matrix P3 2, f(t) = t + |t - 2|/10 with deg = 2: 800 probes, tapes of 2400 draws *)
Section Ex.
Variable F : rcfType.
Variables (tppf : F -> nat -> F) (zq : F -> F).
Variables (eps : F) (fexp flog : F -> F) (feps : F).
Hypothesis eps0 : 0 <= eps.
Variable gauss : seq 'I_2 -> F * seq 'I_2.
Notation lv := (@ref_vals F).
Notation lp := (@ref_pairs F).
Notation ini n f := (mf_init fexp flog feps (sq_array n) f (no_kw F)).
Notation P := (P3 (2%:R : F)).
Let D := [pred t : F | 1 / 2%:R <= t <= 7%:R / 2%:R].
Notation S3 := (iso_sampler (tape_unif (@grid_u 1)) gauss 3 Rademacher).
Notation slq3 := (@slq F (seq 'I_2) tppf zq eps lv lp 3 P KDense F64).
Let f (t : F) := t + `|t - 2%:R| / 10%:R.

Lemma f_near (t : F) : D t -> `|f t - 'X.[t]| <= 3%:R / 20%:R.
Proof.
move=> /andP[t1 t2]; rewrite hornerX /f addrAC subrr add0r normrM normr_id [`|10%:R^-1|]ger0_norm ?invr_ge0 ?ler0n //.
have -> : 3%:R / 20%:R = 3%:R / 2%:R / 10%:R :> F by field.
rewrite ler_wpmul2r ?invr_ge0 ?ler0n // ler_norml; apply/andP; split.
  by rewrite -subr_ge0; move: t1; rewrite -subr_ge0; have -> : t - 2%:R - - (3%:R / 2%:R) = t - 1 / 2%:R by field.
by rewrite ler_subl_addr; have -> : 3%:R / 2%:R + 2%:R = 7%:R / 2%:R :> F by field.
Qed.

Example C94_slq_ex : exists M0 B (val : seq 'I_2 -> F),
  [/\ ini 3 (fcall (fun t => Fin (f t))) 2 2 F64 = Ok M0, is_mxfun f P B,
     forall t : 2400.-tuple 'I_2, slq_value (slq3 801 M0 32 S3 (CCount F 800) false false false (t : seq _)) (val t) &
     fraction F 2400 (fun t => 2%:R * (3%:R / 20%:R) * 3%:R + 1 <= `|val t - \tr B|) <=
       2%:R * (\sum_i \sum_(j | j != i) B i j ^+ 2) / (800%:R * 1 ^+ 2)].
Proof.
have [M0 [E0 H hf d0 o0]] := @ex_built F eps fexp flog feps eps0 3 (fun t => Fin (f t)) 2 2 isT.
have {}d0 : mf_deg M0 = 2%N by rewrite d0. have {}o0 : mf_orth M0 = 2 by exact: o0.
have [u1 u2 u3 u4] := grid2; have O2 : mf_orth M0 <= 2 by rewrite o0.
have [B hB] := mxfun_exists (P3_sym 2%:R) f.
have hg : applies_on D (mf_fun M0) f by move=> xs _; exact: hf.
have sp2 : (size ('X : {poly F}) <= (mf_deg M0).*2)%N by rewrite size_polyX d0.
have hs (v : 'cV[F]_3) : signs v -> stop_at P ((vnorm v)^-1 *: v) (Num.sqrt 3%:R * (1 / 10%:R ^+ 8)) (mf_deg M0) (mf_deg M0).
  by rewrite d0; exact: signs_stop.
have [val [hv av]] := C94_slq_tail u1 u2 u3 u4 tppf zq eps0 (@ref_ok F) (isT : (0 < 3)%N) (P3_sym 2%:R) F64 gauss
  (fuel := 801) (batch := 32) (n := 800) false (full := false) (cb := false) (L := 2400) H O2 hs (@P_range F) hg hB sp2 f_near erefl erefl erefl erefl.
by exists M0, B, val; split=> //; exact: (av 1 ltr01).
Qed.

Example C98_mf_diag_ex : exists M0 B (val : seq 'I_2 -> 'I_3 -> F),
  [/\ ini 3 (fcall (fun t => Fin (f t))) 2 3 F64 = Ok M0, is_mxfun f P B,
     forall t : 2400.-tuple 'I_2, exists out M',
       odiag tppf zq (mf_linop eps lv lp P KDense F64) 801 M0 S3 (CCount F 800) false false false (t : seq _) = Some (Ret (out, M')) /\
       pyval_x 3 (ret_value (run_ret out)) = [seq Fin (val t i) | i <- enum 'I_3] &
     fraction F 2400 (fun t => [exists i, 2%:R * (3%:R / 20%:R) * Num.sqrt 3%:R + 1 <= `|val t i - B i i|]) <=
       2%:R * (\sum_i \sum_(j | j != i) B i j ^+ 2) / (800%:R * 1 ^+ 2)].
Proof.
have [M0 [E0 H hf d0 o0]] := @ex_built F eps fexp flog feps eps0 3 (fun t => Fin (f t)) 2 3 isT.
have {}d0 : mf_deg M0 = 2%N by rewrite d0.
have [u1 u2 u3 u4] := grid2.
have [B hB] := mxfun_exists (P3_sym 2%:R) f.
have hg : applies_on D (mf_fun M0) f by move=> xs _; exact: hf.
have sp2 : (size ('X : {poly F}) <= mf_deg M0)%N by rewrite size_polyX d0.
have hs (v : 'cV[F]_3) : signs v -> stop_at P ((vnorm v)^-1 *: v) (Num.sqrt 3%:R * (1 / 10%:R ^+ 8)) (mf_deg M0) (mf_deg M0).
  by rewrite d0; exact: signs_stop.
have [val [hv av]] := C98_mf_diag_tail u1 u2 u3 u4 tppf zq eps0 (@ref_ok F) (isT : (0 < 3)%N) (P3_sym 2%:R) F64 gauss
  (fuel := 801) (n := 800) false false false (L := 2400) H hs (@P_range F) hg hB sp2 f_near erefl erefl erefl.
by exists M0, B, val; split=> //; exact: (av 1 ltr01).
Qed.
End Ex.

Print Assumptions C94_slq_tail.
Print Assumptions C98_mf_diag_tail.
