(* C93: examples, and the refutation for the default orth = 3. *)
From Coq Require Import String.
From mathcomp Require Import all_ssreflect all_algebra zify ring.
From Verif Require Import Base Spec ModelStats LemStats PropStats ModelEstimators LemEstimators LemEst2
  PropEstimators ModelTyping ModelRandom ModelTrace LemTrace PropTrace PropUnbiased.
From Verif Require Import ModelXtrace LemXtrace ModelLanczos LemLanczos SpecLanczos LemLanczos2 LemLanczos3 LemLanczos4
  ModelTqli ModelQuadrature ModelSpecial ModelOperators SpecTridiag SpecQuad SpecOperators LemSpectral LemQuad PropQuad
  PropOperators LemOperators LemOperators2 PropMatFun PropMatFun2 PropMatFun3 PropMatFun4 PropAccuracy ModelSLQ PropSLQ.
Set Implicit Arguments.
Unset Strict Implicit.
Unset Printing Implicit Defensive.
Import Order.TTheory GRing.Theory Num.Theory.
Local Open Scope string_scope.
Local Open Scope ring_scope.

Section Ex.
Variable F : rcfType.
Variables (tppf : F -> nat -> F) (zq : F -> F).
Variables (eps : F) (fexp flog : F -> F) (feps : F).
Hypothesis eps0 : 0 <= eps.
Variable gauss : seq 'I_2 -> F * seq 'I_2.
Notation lv := (@ref_vals F).
Notation lp := (@ref_pairs F).
Notation ini n f := (mf_init fexp flog feps (sq_array n) f (no_kw F)).
Notation P := (P3 (2%:R : F)).
Notation D := [pred t : F | 1 / 2%:R <= t <= 7%:R / 2%:R].
Notation S3 := (iso_sampler (tape_unif (@grid_u 1)) gauss 3 Rademacher).
Notation slq3 := (@slq F (seq 'I_2) tppf zq eps lv lp 3 P KDense F64).

(* two Lanczos steps are possible from every sign vector *)
Lemma signs_stop (v : 'cV[F]_3) : signs v -> stop_at P ((vnorm v)^-1 *: v) (Num.sqrt 3%:R * (1 / 10%:R ^+ 8)) 2 2.
Proof.
move=> sv; split=> //; last by left.
move=> [|[|//]] // _; apply: (le_trans (tol_le01 F (isT : (3 <= 10)%N))).
rewrite lbS -ler_sqr ?nnegrE ?vnorm_ge0 ?divr_ge0 ?ler01 ?ler0n // vnorm_sq lrE laE lb0 scale0r subr0 lq0.
set c := (vnorm v)^-1; have c2 : c * c = 1 / 3%:R by rewrite -expr2 exprVn vnorm_signs // mul1r.
have -> : P *m (c *: v) - dt (c *: v) (P *m (c *: v)) *: (c *: v) = c *: (P *m v - (dt v (P *m v) / 3%:R) *: v).
  rewrite -scalemxAr dtZl dtZr scalerBr; congr (_ - _); rewrite !scalerA; congr (_ *: _).
  have E (a x : F) : a * (a * x) * a = a * (x * (a * a)) by ring.
  by rewrite E c2 mul1r.
rewrite dtZl dtZr mulrA c2.
have -> : P *m v = \col_i (2%:R * v i 0 + (if (i == 1 :> nat)%N then v 0 0 + v (inord 2) 0 else v 1 0)).
  by apply: colP3; rewrite !mxE !sum3 !mxE /= ?inordK //=; ring.
rewrite !dt3 !mxE !inordK //=.
have [h0 h1 h2] : [/\ v 0 0 = 1 \/ v 0 0 = -1, v 1 0 = 1 \/ v 1 0 = -1 & v (inord 2) 0 = 1 \/ v (inord 2) 0 = -1] by split; exact: sv.
have fin (z : F) : z = 2%:R / 9%:R - 1 / 100%:R \/ z = 2%:R / 3%:R - 1 / 100%:R -> 0 <= z.
  by case=> ->; rewrite subr_ge0 ler_pdivr_mulr ?ltr0n // mulrAC ler_pdivl_mulr ?ltr0n // mul1r -natrM ler_nat.
rewrite -subr_ge0; apply: fin.
by case: h0 => ->; case: h2 => ->; case: h1 => ->; [left|left|right|right|right|right|left|left]; field.
Qed.

Lemma grid2 : [/\ forall x : 'I_2, 0 <= @grid_u 1 x < 1, involutive (@grid_flip 1),
  forall x : 'I_2, (@grid_u 1 (@grid_flip 1 x) < 1 / 2%:R) = ~~ (@grid_u 1 x < 1 / 2%:R) & (0 < #|[finType of 'I_2]|)%N].
Proof. by split; [exact: (@grid_uP 1 isT)|exact: (@grid_flipK 1)|exact: (@grid_flipP 1 isT)|rewrite card_ord]. Qed.

(* f(t) = t^3 with deg = 2, orth = 2 on a 3 x 3 matrix; one probe, tapes of three draws from {0, 1/2}:
   average tr A^3 = 48, variance 1712 *)
Example C93_unbiased_ex : exists M0 (val : seq 'I_2 -> F), [/\ ini 3 (fcall (fun t => Fin (t ^+ 3))) 2 2 F64 = Ok M0,
  forall t : 3.-tuple 'I_2, slq_value (slq3 2 M0 32 S3 (CCount F 1) false false false (t : seq _)) (val t),
  average 3 val = 48%:R & average 3 (fun t => (val t - 48%:R) ^+ 2) = 1712%:R].
Proof.
have [M0 [E0 H hf d0 o0]] := @ex_built F eps fexp flog feps eps0 3 (fun t => Fin (t ^+ 3)) 2 2 isT.
have {}d0 : mf_deg M0 = 2%N by rewrite d0. have {}o0 : mf_orth M0 = 2 by exact: o0.
have [u1 u2 u3 u4] := grid2.
have hx v : signs v -> exact_probe P M0 (fun t => t ^+ 3) (polymx 'X^3 P) v.
  move=> sv; exists 2%N; rewrite d0; split; first exact: signs_stop.
  by left; split=> //; exists 'X^3; rewrite size_polyXn; split=> // t; rewrite hornerXn.
have O2 : mf_orth M0 <= 2 by rewrite o0.
have [val [hv av va]] := C93_unbiased u1 u2 u3 u4 tppf zq eps0 (@ref_ok F) (isT : (0 < 3)%N) (P3_sym 2%:R) F64 gauss
  (fuel := 2) (batch := 32) (n := 1) false (full := false) (cb := false) (L := 3) H O2 (hf : applies _ (fun t => t ^+ 3)) hx erefl erefl erefl erefl.
have e i j : polymx 'X^3 P i j = (nth [::] [:: [:: 14%:R; 14%:R; 6%:R]; [:: 14%:R; 20%:R; 14%:R]; [:: 6%:R; 14%:R; 14%:R]] i)`_j.
  rewrite polymxXn /= mulmx1.
  by case: i => [[|[|[|//]]] hi]; case: j => [[|[|[|//]]] hj]; rewrite !mxE !sum3 !mxE !sum3 !mxE /= ?inordK //=; ring.
have tr : \tr (polymx 'X^3 P) = 48%:R by rewrite /mxtrace sum3 !e /= inordK //=; ring.
exists M0, val; split=> //; first by rewrite av.
by rewrite -tr va !sum3 !e /= inordK //= -[(nbatch _ _ * _)%N]/1%N; field.
Qed.

(* f(t) = t + |t - 2| / 10 on the same matrix: bias at most 9/10 *)
Example C93_bias_ex : let g (t : F) := t + `|t - 2%:R| / 10%:R in
  exists M0 B (val : seq 'I_2 -> F), [/\ ini 3 (fcall (fun t => Fin (g t))) 2 2 F64 = Ok M0, is_mxfun g P B,
  forall t : 3.-tuple 'I_2, slq_value (slq3 2 M0 32 S3 (CCount F 1) false false false (t : seq _)) (val t) &
  `|average 3 val - \tr B| <= 9%:R / 10%:R].
Proof.
move=> g; have [M0 [E0 H hf d0 o0]] := @ex_built F eps fexp flog feps eps0 3 (fun t => Fin (g t)) 2 2 isT.
have {}d0 : mf_deg M0 = 2%N by rewrite d0. have {}o0 : mf_orth M0 = 2 by exact: o0.
have [u1 u2 u3 u4] := grid2; have O2 : mf_orth M0 <= 2 by rewrite o0.
have [B hB] := mxfun_exists (P3_sym 2%:R) g.
have hg : applies_on D (mf_fun M0) g by move=> xs _; exact: hf.
have sp2 : (size ('X : {poly F}) <= (mf_deg M0).*2)%N by rewrite size_polyX d0.
have he (t : F) : D t -> `|g t - 'X.[t]| <= 3%:R / 20%:R.
  move=> /andP[t1 t2]; rewrite hornerX /g addrAC subrr add0r normrM normr_id [`|10%:R^-1|]ger0_norm ?invr_ge0 ?ler0n //.
  have -> : 3%:R / 20%:R = 3%:R / 2%:R / 10%:R :> F by field.
  rewrite ler_wpmul2r ?invr_ge0 ?ler0n // ler_norml; apply/andP; split.
    by rewrite -subr_ge0; move: t1; rewrite -subr_ge0; have -> : t - 2%:R - - (3%:R / 2%:R) = t - 1 / 2%:R by field.
  by rewrite ler_subl_addr; have -> : 3%:R / 2%:R + 2%:R = 7%:R / 2%:R :> F by field.
have hs (v : 'cV[F]_3) : signs v -> stop_at P ((vnorm v)^-1 *: v) (Num.sqrt 3%:R * (1 / 10%:R ^+ 8)) (mf_deg M0) (mf_deg M0).
  by rewrite d0; exact: signs_stop.
have [val [hv av]] := C93_bias u1 u2 u3 u4 tppf zq eps0 (@ref_ok F) (isT : (0 < 3)%N) (P3_sym 2%:R) F64 gauss
  (fuel := 2) (batch := 32) (n := 1) false (full := false) (cb := false) (L := 3) H O2 hs (@P_range F) hg hB sp2 he erefl erefl erefl erefl.
exists M0, B, val; split=> //; apply: (le_trans av).
by have -> : 2%:R * (3%:R / 20%:R) * 3%:R = 9%:R / 10%:R :> F by field.
Qed.

(* fun = "inv": between 0 and tr A^-1 = 5/2 *)
Example C93_inverse_ex : exists M0 (val : seq 'I_2 -> F), [/\ ini 3 (MStr "inv") 2 2 F64 = Ok M0,
  forall t : 3.-tuple 'I_2, slq_value (slq3 2 M0 32 S3 (CCount F 1) false false false (t : seq _)) (val t) &
  0 <= average 3 val <= 5%:R / 2%:R].
Proof.
have [_ h] := C62_accepts_iff fexp flog feps (sq_array 3) (MStr "inv") (no_kw F) 2 2 F64.
have sq : square_shape (sq_array 3) 3 by exists [::].
have [|M0 E] := h.
  by split=> //; [left|exists 3%N; split=> //=; right; right; right; right; left].
have [[_ dd] [_ [O _]] _ _ _] := C62_fields sq E.
have d0 : mf_deg M0 = 2%N by lia.
have O2 : mf_orth M0 <= 2 by rewrite O // d0.
have H : built fexp flog feps 3 KDense M0.
  by exists (sq_array 3), (MStr "inv"), (no_kw F), 2, 2, F64; split=> //; right.
have [u1 u2 u3 u4] := grid2.
have hs (v : 'cV[F]_3) : signs v -> stop_at P ((vnorm v)^-1 *: v) (Num.sqrt 3%:R * (1 / 10%:R ^+ 8)) (mf_deg M0) (mf_deg M0).
  by rewrite d0; exact: signs_stop.
have [val [hv av]] := C93_inverse_bias u1 u2 u3 u4 tppf zq eps0 (@ref_ok F) (isT : (0 < 3)%N) (P3_sym 2%:R) F64 gauss
  (fuel := 2) (batch := 32) (n := 1) false (full := false) (cb := false) (L := 3) H O2 hs (C92_builtin E) (@P_posdef F) erefl erefl erefl erefl.
exists M0, val; split=> //; move: av; congr (_ <= _ <= _).
pose Z : 'M[F]_3 := \matrix_(i, j) ((nth [::] [:: [:: 3%:R; - 2%:R; 1]; [:: - 2%:R; 4%:R; - 2%:R]; [:: 1; - 2%:R; 3%:R]] i)`_j / 4%:R).
have PZ : P *m Z = 1%:M.
  apply/matrixP => i j; rewrite !mxE.
  by case: i => [[|[|[|//]]] hi]; case: j => [[|[|[|//]]] hj]; rewrite !sum3 !mxE /= ?inordK //=; field.
have uP := (posdef_inv (P3_sym 2%:R) (@P_posdef F)).1.
have -> : invmx P = Z by rewrite -[Z](mulKmx uP) PZ mulmx1.
by rewrite /mxtrace sum3 !mxE /= !inordK //=; field.
Qed.
End Ex.

(* ---- the default orth = 3 --------------------------------------------------------------- *)
Section Stale.
Variable F : rcfType.
Variables (tppf : F -> nat -> F) (zq : F -> F).
Variables (eps : F) (fexp flog : F -> F) (feps : F).
Hypothesis eps0 : 0 <= eps.
Variable lv : seq F -> seq F -> res (seq F).
Variable lp : seq F -> seq F -> res (seq F * seq (seq F)).
Hypothesis lapack : lapack_ok lv lp.
Variable dA : dty.

(* two columns, the Lanczos vectors of the second being those of the first in reverse order *)
Lemma stale_pair n (A : 'M[F]_n) M0 (x y : seq F) (v0 v1 v2 : 'cV[F]_n) :
  (0 < n <= 10)%N -> A^T = A -> built fexp flog feps n KDense M0 -> mf_deg M0 = 3%N -> mf_orth M0 = 3 ->
  xapplies (mf_fun M0) (fun t => Fin (t ^+ 2)) -> eps <= 1 / 10%:R ->
  size x = n -> size y = n -> (vnorm (vec n x))^-1 *: vec n x = v0 -> (vnorm (vec n y))^-1 *: vec n y = v2 ->
  [/\ dt v0 v0 = 1, dt v1 v1 = 1 & dt v2 v2 = 1] -> [/\ dt v0 v1 = 0, dt v0 v2 = 0 & dt v1 v2 = 0] ->
  [/\ A *m v0 = v1, A *m v1 = v0 + v2 & A *m v2 = v1] ->
  exists M1, mf_quad eps lv lp A KDense dA M0 [:: x] = (Ret [:: Fin (qform (A *m A) (vec n x))], M1) /\
    (mf_quad eps lv lp A KDense dA M1 [:: y]).1 = Ret [:: Fin 0].
Proof.
move=> /andP[n0 n10] sA B d0 o0 hf he sx sy S0 S2 [h00 h11 h22] [h01 h02 h12] [A0 A1 A2].
have [W L Z] := built_ok eps0 n0 B.
have A0' : A *m v0 = 0 *: v0 + 1 *: v1 by rewrite scale0r add0r scale1r.
have A1' : A *m v1 = 1 *: v0 + 0 *: v1 + 1 *: v2 by rewrite scale0r addr0 !scale1r.
have hs0 : stop_at A ((vnorm (vec n x))^-1 *: vec n x) (Num.sqrt n%:R * (1 / 10%:R ^+ 8)) (mf_deg M0) 3.
  rewrite S0 d0; split=> //; last by left.
  case=> [|[|[|//]]] // _; apply: (le_trans (tol_le1 F n10)).
    by rewrite (r_lb1 h00 h01 h11 ltr01 A0').
  by rewrite (r_lb2 h00 h01 h11 ltr01 A0' h12 A1' h22 ltr01).
have hp : applies (mf_fun M0) (fun t => ('X^2 : {poly F}).[t]) by move=> xs; rewrite hf; apply: eq_map => t; rewrite hornerXn.
have hsz : (size ('X^2 : {poly F}) <= (mf_deg M0).*2)%N by rewrite d0 size_polyXn.
have C0 : after_calls eps lv lp A KDense dA M0 M0 by exists [::].
have R0 := C55_gauss eps0 lapack n0 sA B C0 (or_introl erefl) sx hp hs0 (or_introl (conj (esym d0) hsz)).
rewrite polymxXn /= mulmx1 in R0.
have [w [Y [_ E]]] := quad1_run lapack eps0 n0 sA dA W L (or_intror Z) sx hs0.
set M1 := MF _ _ _ _ _ _ _ _ _ _ _ in E.
have V1 : quad_value n M0 x w (nth [::] Y 0) = Ret (Fin (qform (A *m A) (vec n x))).
  by move: R0; rewrite E; case: (quad_value _ _ _ _ _) => //= z [->].
rewrite V1 in E.
exists M1; split; first by rewrite /= E.
have C1 : after_calls eps lv lp A KDense dA M0 M1 by exists [:: CQuad [:: x]]; rewrite /= E.
have [W1 L1 _] := calls_ok eps0 n0 B C1.
have Q1 : colv n (mf_Q M1) 1 = v1.
  rewrite /M1 /= d0 colv_flat // slot_small //.
  have -> : start (cvec n x) = v0 by rewrite -S0.
  by rewrite (r_lq1 h00 h01 h11 ltr01 A0').
have t1 : 2%:R * eps * Num.sqrt n%:R < 1.
  have h : Num.sqrt n%:R <= 4%:R :> F.
    have -> : 4%:R = Num.sqrt (4%:R ^+ 2) :> F by rewrite sqrtr_sqr ger0_norm ?ler0n.
    by rewrite ler_wsqrtr // -natrX ler_nat (leq_trans n10).
  apply: (@le_lt_trans _ _ (2%:R * (1 / 10%:R) * 4%:R)).
    by apply: ler_pmul; rewrite ?mulr_ge0 ?ler0n ?sqrtr_ge0 // ler_wpmul2l // ler0n.
  by rewrite mulrAC mulrA mulr1 ltr_pdivr_mulr ?ltr0n // mul1r -natrM ltr_nat.
rewrite dtC in h12.
have [M2 [E2 W2 d2 f2 [a2 b2 b2']]] := stale_stop eps0 dA n0 W1 L1 d0 o0 sy S2 h22 h12 h11 A2 Q1 t1.
have [v [Y' [[_ eig] E']]] := quad1_eval lapack eps0 n0 E2 W2 b2 sy.
have hp2 : entrywise (mf_fun M2) (fun t => t ^+ 2) by rewrite f2.
have i0 : (0 < mf_deg M2)%N by rewrite d2.
have hX : forall t : F, t \in v -> ('X^2 : {poly F}).[t] = t ^+ 2 by move=> t _; rewrite hornerXn.
rewrite /= E' (@quad_value_poly _ _ M2 M2 y v Y' (fun t => t ^+ 2) 'X^2 (Ordinal i0) erefl eig hp2 hX) polymxXn /= mulmx1.
congr (Ret [:: Fin _]); rewrite mxE big1 ?mul0r // => k _; rewrite !mxE /=.
by case: eqP => [<-|_]; rewrite ?a2 ?mul0r //; case: eqP => [<-|_]; rewrite ?b2' mul0r.
Qed.

Lemma sum4 (f : 'I_4 -> F) : \sum_i f i = f 0 + f 1 + f (inord 2) + f (inord 3).
Proof.
rewrite !big_ord_recl big_ord0 addr0 !addrA; congr (f _ + f _ + f _ + f _); apply/val_inj => //=; by rewrite inordK.
Qed.

Lemma colP4 (u w : 'cV[F]_4) : u 0 0 = w 0 0 -> u 1 0 = w 1 0 -> u (inord 2) 0 = w (inord 2) 0 -> u (inord 3) 0 = w (inord 3) 0 -> u = w.
Proof.
move=> h0 h1 h2 h3; apply/colP => i; case: i => [[|[|[|[|//]]]] hi].
- by rewrite (_ : Ordinal hi = 0) //; exact/val_inj.
- by rewrite (_ : Ordinal hi = 1) //; exact/val_inj.
- by rewrite (_ : Ordinal hi = inord 2) //; apply/val_inj; rewrite /= inordK.
- by rewrite (_ : Ordinal hi = inord 3) //; apply/val_inj; rewrite /= inordK.
Qed.

Definition cv4 (a b c d : F) : 'cV[F]_4 := \col_i [:: a; b; c; d]`_i.
Definition s0 : 'cV[F]_4 := cv4 1 1 1 1.
Definition s1 : 'cV[F]_4 := cv4 1 (-1) 1 (-1).
Definition s2 : 'cV[F]_4 := cv4 1 1 (-1) (-1).

(* A = 1/2 [[2,0,1,-1], [0,-2,1,-1], [1,1,0,0], [-1,-1,0,0]] *)
Definition Q4 : 'M[F]_4 := \matrix_(i, j)
  ((nth [::] [:: [:: 2%:R; 0; 1; -1]; [:: 0; - 2%:R; 1; -1]; [:: 1; 1; 0; 0]; [:: -1; -1; 0; 0]] i)`_j / 2%:R).

Lemma Q4_sym : Q4^T = Q4.
Proof.
by apply/matrixP => i j; rewrite !mxE; case: i => [[|[|[|[|//]]]] hi]; case: j => [[|[|[|[|//]]]] hj].
Qed.

Lemma dt4 (u w : 'cV[F]_4) : dt u w = u 0 0 * w 0 0 + u 1 0 * w 1 0 + u (inord 2) 0 * w (inord 2) 0 + u (inord 3) 0 * w (inord 3) 0.
Proof. by rewrite dtE sum4. Qed.

Lemma norm4 v : dt v v = 4%:R -> (vnorm v)^-1 *: v = 2%:R^-1 *: v :> 'cV[F]_4.
Proof.
by move=> h; rewrite vnormE h (_ : 4%:R = 2%:R ^+ 2) ?sqrtr_sqr ?ger0_norm ?ler0n // -natrX.
Qed.

(* one column, then another, with the value of the second depending on the first *)
Lemma two_steps N (A : 'M[F]_N) (G : Type) (sample : sampler F G N) M0 M1 M2 g g1 g2 v w (O : oper F N) batch c r out :
  sample 1%N g = ([:: v], g1) -> sample 1%N g1 = ([:: w], g2) ->
  mf_quad eps lv lp A KDense dA M0 [:: colseq v] = (Ret [:: Fin (qf O v)], M1) ->
  mf_quad eps lv lp A KDense dA M1 [:: colseq w] = (Ret [:: Fin (qf O w)], M2) ->
  hutch tppf zq 3 O batch sample c r false false g = Some (Ok out) ->
  exists M', slq tppf zq eps lv lp A KDense dA 3 M0 batch sample c r false false g = Some (Ret (out, M')).
Proof.
move=> e1 e2 h1 h2; rewrite /slq /hutch; case: ifP => [_ [<-]|_]; first by exists M0.
set st := LState _ _ _ _.
have body s M M' u g' : sample 1%N (lo_gen s) = ([:: u], g') -> mf_quad eps lv lp A KDense dA M [:: colseq u] = (Ret [:: Fin (qf O u)], M') ->
    slq_body eps lv lp A KDense dA sample 1 false (SState s M) =
    match hutch_body O sample 1 false s with Ok s' => Ret (SState s' M') | Err e => Raise e end /\
    forall s', hutch_body O sample 1 false s = Ok s' -> lo_gen s' = g'.
  move=> es eq; rewrite /slq_body /hutch_body /= es /= in eq *; rewrite eq /= quad_formE.
  by case: (mest_update _ _) => est [e|] //=; split=> // s' [<-].
have [b1 g1E] := body st M0 M1 v g1 e1 h1.
rewrite /=; case: (loop_test _ _ _ st) => [[]|e] //=; first by case=> <-; exists M0.
rewrite b1; case: (hutch_body O sample 1 false st) g1E => [st1|//] /(_ _ erefl) eg1.
rewrite -eg1 in e2; have [b2 _] := body st1 M1 M2 w g2 e2 h2.
case: (loop_test _ _ _ st1) => [[]|e] //=; first by case=> <-; exists M1.
rewrite b2; case: (hutch_body O sample 1 false st1) => [st2|//].
rewrite /=; case: (loop_test _ _ _ st2) => [[]|e] //=; first by case=> <-; exists M2.
by case: (hutch_body O sample 1 false st2).
Qed.

(* hutch(MatrixFunction(A, fun=np.square, deg=3)) with the default orth = 3 and two sign vectors as probes
   returns 2; on the explicit A^2, with the same probes, it returns 4 *)
Theorem C93_stale_refuted (G : Type) (sample : sampler F G 4) g g1 g2 batch r : eps <= 1 / 10%:R -> 0 < batch ->
  sample_ok sample -> sample 1%N g = ([:: s0], g1) -> sample 1%N g1 = ([:: s2], g2) ->
  exists M0, [/\ mf_init fexp flog feps (sq_array 4) (fcall (fun t => Fin (t ^+ 2))) (no_kw F) 3 3 F64 = Ok M0,
    slq_value (slq tppf zq eps lv lp Q4 KDense dA 3 M0 batch sample (CCount F 2) r false false g) 2%:R &
    value_is (hutch tppf zq 3 (Oper (Q4 *m Q4) None) batch sample (CCount F 2) r false false g) 4%:R].
Proof.
move=> he b0 ok e1 e2.
have [M0 [E0 B hf d0 o0]] := @ex_built F eps fexp flog feps eps0 4 (fun t => Fin (t ^+ 2)) 3 3 isT.
have {}d0 : mf_deg M0 = 3%N by rewrite d0. have {}o0 : mf_orth M0 = 3 by exact: o0.
exists M0; split=> //.
  pose q v : F := if v == s0 then 4%:R else 0.
  have q0 : q s0 = 4%:R by rewrite /q eqxx.
  have q2 : q s2 = 0.
    rewrite /q; case: eqP => // /colP/(_ (inord 3)); rewrite !mxE inordK //= => /eqP.
    by rewrite -subr_eq0 -opprD oppr_eq0 -mulr2n mulrn_eq0 oner_eq0.
  pose c : F := 2%:R^-1.
  have Dz (u w : 'cV[F]_4) : dt u w = 0 -> dt (c *: u) (c *: w) = 0 by move=> h; rewrite dtZl dtZr h !mulr0.
  have Do (u : 'cV[F]_4) : dt u u = 4%:R -> dt (c *: u) (c *: u) = 1 by move=> h; rewrite dtZl dtZr h /c; field.
  have n0 : dt s0 s0 = 4%:R by rewrite dt4 !mxE !inordK //=; ring.
  have n1 : dt s1 s1 = 4%:R by rewrite dt4 !mxE !inordK //=; ring.
  have n2 : dt s2 s2 = 4%:R by rewrite dt4 !mxE !inordK //=; ring.
  have [] := @stale_pair 4 Q4 M0 (colseq s0) (colseq s2) (c *: s0) (c *: s1) (c *: s2) isT Q4_sym B d0 o0 hf he
      (size_colseq _) (size_colseq _).
  - by rewrite vec_colseq norm4.
  - by rewrite vec_colseq norm4.
  - by split; apply: Do.
  - by split; apply: Dz; rewrite dt4 !mxE !inordK //=; ring.
  - by split; rewrite -!scalemxAr -?scalerDr; congr (_ *: _); apply: colP4; rewrite !mxE !sum4 !mxE !inordK //=; field.
  move=> M1 []; rewrite vec_colseq => h1 h2.
  have q4 : qform (Q4 *m Q4) s0 = q s0.
    by rewrite q0 /qform mxE sum4 !mxE !sum4 !mxE !sum4 !mxE !inordK //=; field.
  rewrite q4 in h1; rewrite -q2 in h2.
  case E2: (mf_quad eps lv lp Q4 KDense dA M1 [:: colseq s2]) h2 => [y M2] /= h2; rewrite {y}h2 in E2.
  have [out [eo [hp _ hv]]] := @count_value F _ tppf zq 4 3 (Oper Q4 (Some q)) batch sample 2 r false false g ok isT b0 isT isT.
  have [M' E'] := two_steps (O := Oper Q4 (Some q)) e1 e2 h1 E2 eo.
  exists out, M'; split=> //; rewrite hv hp /eff /= e1 /= e2 /= /avg /= !big_cons big_nil /qf /= q0 q2.
  by congr (PFloat (Fin _)); field.
have [out [eo [hp _ hv]]] := @count_value F _ tppf zq 4 3 (Oper (Q4 *m Q4) None) batch sample 2 r false false g ok isT b0 isT isT.
exists out; split=> //; rewrite hv hp /eff /= e1 /= e2 /= /avg /= !big_cons big_nil /qf /=.
congr (PFloat (Fin _)).
have -> : (s0^T *m (Q4 *m Q4) *m s0) 0 0 = 4%:R.
  by rewrite mxE sum4 !mxE !sum4 !mxE !sum4 !mxE !inordK //=; field.
have -> : (s2^T *m (Q4 *m Q4) *m s2) 0 0 = 4%:R.
  by rewrite mxE sum4 !mxE !sum4 !mxE !sum4 !mxE !inordK //=; field.
by field.
Qed.
End Stale.

(* np.random's Rademacher probes can be these *)
Example C93_stale_ex (F : rcfType) (gauss : seq 'I_2 -> F * seq 'I_2) :
  let S := iso_sampler (tape_unif (@grid_u 1)) gauss 4 Rademacher in
  let o : 'I_2 := @Ordinal 2 1 isT in let z : 'I_2 := @Ordinal 2 0 isT in
  sample_ok S /\ exists g1 g2, S 1%N [:: o; o; o; o; o; o; z; z] = ([:: s0 F], g1) /\ S 1%N g1 = ([:: s2 F], g2).
Proof.
move=> S o z; split; first exact: iso_sample_ok.
have so : sgn F (@grid_u 1) o = 1 by rewrite /sgn grid_half.
have sz : sgn F (@grid_u 1) z = -1 by rewrite /sgn grid_half.
have u2 x := @grid_uP 1 isT x.
have nx t : (4 <= size t)%N -> S 1%N t = ([:: \col_(i < 4) sgn_at F (@grid_u 1) t i], drop 4 t).
  move=> h; rewrite [LHS]surjective_pairing; congr (_, _).
    by rewrite (tape_cols u2) ?mul1n //= mul0n.
  by rewrite /S /iso_sampler /mk_sampler /iso_fill fill_tape ?mul1n.
exists [:: o; o; z; z], [::]; rewrite !nx //=; split; congr ([:: _], _); apply: colP4; by rewrite !mxE ?inordK //= /sgn_at /= ?so ?sz.
Qed.

Print Assumptions C93_unbiased_ex.
Print Assumptions C93_stale_refuted.
