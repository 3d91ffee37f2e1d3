(* C98, C99: how far the values of diag and hutchpp are from the diagonal and the trace, over
   all sign tapes. *)
From Coq Require Import String.
From mathcomp Require Import all_ssreflect all_algebra zify ring.
From Verif Require Import Base Spec ModelStats LemStats PropStats ModelEstimators LemEstimators LemEst2
  PropEstimators ModelTyping ModelRandom ModelTrace LemTrace PropTrace PropUnbiased PropTail PropDiag ModelHutchpp PropHutchpp.
Set Implicit Arguments.
Unset Strict Implicit.
Unset Printing Implicit Defensive.
Import Order.TTheory GRing.Theory Num.Theory.
Local Open Scope ring_scope.

(* ---- the weights of diag ---------------------------------------------------------------- *)
Section Weights.
Variable F : rcfType.
Definition harmonic (n : nat) : F := \sum_(l < n) l.+1%:R^-1.

Lemma sum_tails k : \sum_(j < k) \sum_(j <= l < k) l.+1%:R^-1 = k%:R :> F.
Proof.
elim: k => [|k IH]; first by rewrite big_ord0.
rewrite big_ord_recr /= big_nat1.
rewrite (eq_bigr (fun j : 'I_k => \sum_(j <= l < k) l.+1%:R^-1 + k.+1%:R^-1)) => [|j _]; last first.
  by rewrite big_nat_recr //= ltnW.
rewrite big_split /= IH sumr_const card_ord -addrA -mulrSr -[_ *+ k.+1]mulr_natr mulVf ?pnatr_eq0 //.
by rewrite -mulrSr.
Qed.

Lemma sum_tails2 k : \sum_(j < k) (\sum_(j <= l < k) l.+1%:R^-1) ^+ 2 = 2%:R * k%:R - harmonic k :> F.
Proof.
elim: k => [|k IH]; first by rewrite /harmonic !big_ord0 mulr0 subr0.
rewrite big_ord_recr /= big_nat1.
rewrite (eq_bigr (fun j : 'I_k => (\sum_(j <= l < k) l.+1%:R^-1) ^+ 2
   + (2%:R * k.+1%:R^-1 * (\sum_(j <= l < k) l.+1%:R^-1) + k.+1%:R^-1 ^+ 2))) => [|j _]; last first.
  rewrite big_nat_recr /=; last exact: ltnW.
  by move: (\sum_(j <= l < k) _) (_^-1) => x y; ring.
rewrite !big_split /= IH -big_distrr /= sum_tails sumr_const card_ord -[_ *+ k]mulr_natr.
rewrite [harmonic k.+1]/harmonic big_ord_recr /= -/(harmonic k).
have k0 : (k.+1)%:R != 0 :> F by rewrite pnatr_eq0.
have E : k.+1%:R = k%:R + 1 :> F by rewrite -[RHS]mulrSr.
rewrite E in k0 *; field; exact: k0.
Qed.

Definition spread (n : nat) : F := (2%:R * n%:R - harmonic n) / n%:R ^+ 2.
Lemma sum_weights2 n : \sum_(j < n) weight F n j ^+ 2 = spread n.
Proof. by rewrite /spread -sum_tails2 big_distrl /=; apply: eq_bigr => j _; rewrite /weight expr_div_n. Qed.
End Weights.

(* between 1/n and 2/n *)
Section Bounds.
Variable F : rcfType.
Local Notation harmonic := (harmonic F).
Local Notation spread := (spread F).

Lemma inv_le1 l : (l.+1%:R : F)^-1 <= 1.
Proof. by rewrite invf_le1 ?ler1n ?ltr0n. Qed.

Lemma harmonic_gt0 n : (0 < n)%N -> 0 < harmonic n.
Proof.
case: n => // n _; rewrite /harmonic big_ord_recl invr1.
by rewrite (@lt_le_trans _ _ 1) ?ltr01 // ler_addl sumr_ge0 // => i _; rewrite invr_ge0 ler0n.
Qed.

Lemma harmonic_lt n : (1 < n)%N -> harmonic n < n%:R.
Proof.
case: n => [//|[//|n]] _; rewrite /harmonic !big_ord_recl /= invr1.
have h : \sum_(i < n) (bump 0 (bump 0 i)).+1%:R^-1 <= n%:R :> F.
  rewrite (le_trans (ler_sum _ (fun i _ => inv_le1 _))) // sumr_const card_ord //.
have -> : n.+2%:R = 1 + (1 + n%:R) :> F by rewrite -!mulrS.
rewrite ltr_add2l ltr_le_add // invf_lt1 ?ltr1n ?ltr0n //.
Qed.

Lemma harmonic_small q n : (0 < q)%N -> (q ^ 2 <= n)%N -> harmonic n <= 2%:R * n%:R / q%:R.
Proof.
move=> q0 h; have qn : (q <= n)%N by apply: leq_trans h; rewrite expnS expn1 leq_pmulr.
have q1 : 0 < q%:R :> F by rewrite ltr0n.
have H m : harmonic (q + m) <= q%:R + m%:R / q%:R.
  elim: m => [|m IH].
    rewrite addn0 mul0r addr0 /harmonic (le_trans (ler_sum _ (fun i _ => inv_le1 _))) // sumr_const card_ord //.
  rewrite addnS /harmonic big_ord_recr /= -/(harmonic _) [m.+1%:R]mulrSr mulrDl mul1r addrA ler_add //.
  by rewrite lef_pinv ?posrE ?ltr0n // ler_nat ltnW // ltnS leq_addr.
rewrite -(subnKC qn); apply: (le_trans (H _)); rewrite subnKC //.
rewrite ler_pdivl_mulr // mulrDl mulfVK ?gt_eqF // mulr_natl mulr2n ler_add //; last by rewrite ler_nat leq_subr.
by rewrite -natrM ler_nat mulnn.
Qed.
End Bounds.

(* ---- C98 ---------------------------------------------------------------------------------- *)
Section DiagVar.
Variable F : rcfType.
Variables (X : finType) (u : X -> rat) (flip : X -> X).
Hypothesis uP : forall x, 0 <= u x < 1.
Hypothesis flipK : involutive flip.
Hypothesis flipP : forall x, (u (flip x) < 1 / 2%:R) = ~~ (u x < 1 / 2%:R).
Hypothesis X0 : (0 < #|X|)%N.
Variable gauss : seq X -> F * seq X.
Variables (tppf : F -> nat -> F) (zq : F -> F).
Variable N : nat.
Local Notation S := (iso_sampler (tape_unif u) gauss N Rademacher).
Local Notation average := (@average F X).
Local Notation harmonic := (harmonic F).

(* the squares of row i outside the diagonal *)
Definition off (A : 'M[F]_N) (i : 'I_N) : F := \sum_(j | j != i) A i j ^+ 2.

Lemma off_ge0 A i : 0 <= off A i.
Proof. by apply: sumr_ge0 => j _; exact: sqr_ge0. Qed.

Definition dval (A : 'M[F]_N) n (t : seq X) (i : 'I_N) : F :=
  \sum_(j < n) weight F n j * ((A *m (S n t).1`_j) i 0 * (S n t).1`_j i 0).

Lemma dval_run fuel (A : 'M[F]_N) n full cb r (t : seq X) : (0 < N)%N -> (0 < n)%N -> (n < fuel)%N ->
  exists out, diag tppf zq fuel A S (CCount F n%:Z) full cb r t = Some (Ok out) /\
    pyval_x N (ret_value (run_ret out)) = [seq Fin (dval A n t i) | i <- enum 'I_N].
Proof.
move=> N0 n0 hf; have ok := @iso_sample_ok F (seq X) (tape_unif u) gauss N Rademacher.
have [out [e hs]] := @C81_diag_count F (seq X) tppf zq N fuel A S n%:Z full cb r t ok N0 hf.
rewrite /pos_part in hs; exists out; split=> //.
have [_ hp] := C40_diag_value ok N0 e; rewrite hs /dprobes in hp.
have [ep _] := iso_batches (tape_unif u) gauss N Rademacher 1 n t; rewrite muln1 in ep; rewrite ep in hp.
rewrite (C40_sign_probes_weighted_mean ok N0 e); first by rewrite hs hp.
  by rewrite hs.
by move=> v i; rewrite hp => /(rademacher_probe (tape_unifP uP)).
Qed.

Lemma dval_var (A : 'M[F]_N) n L i : (0 < n)%N -> (n * N <= L)%N ->
  average L (fun t => (dval A n t i - A i i) ^+ 2) = spread F n * off A i.
Proof.
move=> n0 h.
pose T := ('I_n * 'I_N)%type; pose P (x : T) := x.2 != i.
pose c (x : T) := weight F n x.1 * A i x.2.
pose f (t : L.-tuple X) (x : T) := sg F u t (pos h x.1 x.2) * sg F u t (pos h x.1 i).
have dev (t : L.-tuple X) : dval A n t i - A i i = \sum_(x | P x) c x * f t x.
  rewrite -(pair_big_dep xpredT (fun _ b => b != i) (fun (j : 'I_n) (b : 'I_N) => weight F n j * A i b * (sg F u t (pos h j b) * sg F u t (pos h j i)))) /=.
  rewrite -[A i i]mul1r -(C40_weights_sum_to_one F n0) big_distrl /= -sumrB; apply: eq_bigr => j _.
  rewrite -mulrBr (entry uP gauss h) !mxE big_distrl /= (bigD1 i) //= !mxE -[X in X + _ - _]mulrA [sg _ _ _ _ * _](sgn_sq F u) mulr1.
  rewrite addrAC subrr add0r big_distrr /=; apply: eq_bigr => b _; by rewrite !mxE !mulrA.
rewrite /average (eq_bigr (fun t : L.-tuple X => \sum_(x | P x) \sum_(y | P y) c x * c y * (f t x * f t y))) => [|t _]; last first.
  rewrite dev expr2 big_distrl /=; apply: eq_bigr => x _; rewrite big_distrr /=; apply: eq_bigr => y _.
  by rewrite mulrACA.
rewrite exchange_big /=.
have E x : P x -> \sum_(t : L.-tuple X) \sum_(y | P y) c x * c y * (f t x * f t y) = c x ^+ 2 * #|{: L.-tuple X}|%:R.
  move=> Px; rewrite exchange_big /= (bigD1 x) //= [X in _ + X]big1 ?addr0 => [|y /andP[Py yx]].
    by rewrite -big_distrr /= (moment4 _ flipK flipP) ?pos_eq ?eqxx //= (negPf Px) addn0 mul1r expr2.
  rewrite -big_distrr /= (moment4 _ flipK flipP) ?pos_eq ?eqxx //= (negPf Px) andbF /= addn0.
  case: x y yx {Px Py} => j b [k b']; rewrite xpair_eqE /= [k == j]eq_sym [b' == b]eq_sym andbT.
  by move/negPf => -> /=; rewrite mul0r mulr0.
rewrite (eq_bigr _ E) -big_distrl /= mulfK ?card_tape //.
rewrite -(pair_big_dep xpredT (fun _ b => b != i) (fun (j : 'I_n) (b : 'I_N) => (weight F n j * A i b) ^+ 2)) /=.
rewrite -sum_weights2 big_distrl /=; apply: eq_bigr => j _; rewrite /off big_distrr /=; apply: eq_bigr => b _.
by rewrite exprMn.
Qed.

(* the mean square error of each entry after n probes *)
Theorem C98_diag_variance fuel (A : 'M[F]_N) n full cb r L :
  (0 < N)%N -> (0 < n)%N -> (n < fuel)%N -> (n * N <= L)%N ->
  exists val : seq X -> 'I_N -> F,
   (forall t : L.-tuple X, exists out,
      diag tppf zq fuel A S (CCount F n%:Z) full cb r (t : seq X) = Some (Ok out) /\
      pyval_x N (ret_value (run_ret out)) = [seq Fin (val t i) | i <- enum 'I_N]) /\
   forall i, average L (fun t => (val t i - A i i) ^+ 2) =
     (2%:R * n%:R - \sum_(1 <= l < n.+1) l%:R^-1) / n%:R ^+ 2 * \sum_(j | j != i) A i j ^+ 2.
Proof.
move=> N0 n0 hf h; exists (dval A n); split=> [t|i]; first exact: dval_run.
by rewrite dval_var // /spread /harmonic big_add1 /= big_mkord.
Qed.

(* more than the mean of n independent samples would have, up to twice as much, and nearly twice as much for many
   probes *)
Theorem C98_mean_of_samples_refuted fuel (A : 'M[F]_N) n full cb r L i :
  (0 < N)%N -> (1 < n)%N -> (n < fuel)%N -> (n * N <= L)%N -> (exists2 j, j != i & A i j != 0) ->
  exists val : seq X -> F,
   (forall t : L.-tuple X, exists out,
      diag tppf zq fuel A S (CCount F n%:Z) full cb r (t : seq X) = Some (Ok out) /\
      nth NaN (pyval_x N (ret_value (run_ret out))) i = Fin (val t)) /\
   let mse := average L (fun t => (val t - A i i) ^+ 2) in
   let one := (\sum_(j | j != i) A i j ^+ 2) / n%:R in
   one < mse < 2%:R * one /\ forall q, (0 < q)%N -> (q ^ 2 <= n)%N -> (2%:R - 2%:R / q%:R) * one <= mse.
Proof.
move=> N0 n1 hf h [j ji aj]; have n0 := ltnW n1; exists (fun t => dval A n t i); split=> [t|].
  have [out [e hv]] := @dval_run fuel A n full cb r t N0 n0 hf; exists out; split=> //.
  by rewrite hv (nth_map i) ?size_enum_ord // nth_ord_enum.
have o0 : 0 < off A i by rewrite /off (bigD1 j) //= ltr_paddr ?sumr_ge0 // ?exprn_even_gt0 // => k _; exact: sqr_ge0.
have nF : 0 < n%:R :> F by rewrite ltr0n.
rewrite /= dval_var // -/(off A i).
have S1 : spread F n = (2%:R - harmonic n / n%:R) / n%:R.
  by rewrite /spread; field; rewrite gt_eqF.
rewrite S1 ![_ / n%:R * off A i]mulrAC ![2%:R * (_ / _)]mulrA -[off A i / _]mul1r !mulrA !ltr_pmul2r ?invr_gt0 // mul1r.
split=> [|q q0 qn].
  apply/andP; split.
    by rewrite ltr_subr_addr -[X in _ < X]/(1 + 1) ltr_add2l ltr_pdivr_mulr // mul1r harmonic_lt.
  by rewrite ltr_subl_addr ltr_addl divr_gt0 // harmonic_gt0.
rewrite mulrA ler_pmul2r ?invr_gt0 // ler_pmul2r // ler_add2l ler_opp2 ler_pdivr_mulr // mulrAC.
exact: harmonic_small.
Qed.

(* all entries at once: how many tapes leave some entry e or more away *)
Theorem C98_diag_tail fuel (A : 'M[F]_N) n full cb r L :
  (0 < N)%N -> (0 < n)%N -> (n < fuel)%N -> (n * N <= L)%N ->
  exists val : seq X -> 'I_N -> F,
   (forall t : L.-tuple X, exists out,
      diag tppf zq fuel A S (CCount F n%:Z) full cb r (t : seq X) = Some (Ok out) /\
      pyval_x N (ret_value (run_ret out)) = [seq Fin (val t i) | i <- enum 'I_N]) /\
   forall e : F, 0 < e -> fraction F L (fun t => [exists i, e <= `|val t i - A i i|]) <=
     2%:R * (\sum_i \sum_(j | j != i) A i j ^+ 2) / (n%:R * e ^+ 2).
Proof.
move=> N0 n0 hf h; exists (dval A n); split=> [t|e e0]; first exact: dval_run.
have e2 : 0 < e ^+ 2 by exact: exprn_gt0.
have nF : 0 < n%:R :> F by rewrite ltr0n.
pose f (t : seq X) := \sum_i (dval A n t i - A i i) ^+ 2.
have f0 t : 0 <= f t by apply: sumr_ge0 => i _; exact: sqr_ge0.
apply: (@le_trans _ _ (fraction F L (fun t => e ^+ 2 <= f t))).
  rewrite !fractionE /PropUnbiased.average ler_wpmul2r ?invr_ge0 ?ler0n //; apply: ler_sum => t _.
  case: existsP => [[i hi]|_]; last by rewrite ler0n.
  suff -> : e ^+ 2 <= f t by [].
  apply: (@le_trans _ _ ((dval A n t i - A i i) ^+ 2)).
    by rewrite -[in X in _ <= X](real_normK (num_real _)) ler_sqr ?nnegrE // ltW.
  by rewrite /f (bigD1 i) //= ler_addl sumr_ge0 // => j _; exact: sqr_ge0.
apply: (le_trans (markov L f0 e2)); rewrite [(n%:R * _)^-1]invfM [X in _ <= X]mulrA ler_wpmul2r ?invr_ge0 ?(ltW e2) //.
have -> : average L f = spread F n * \sum_i off A i.
  rewrite /PropUnbiased.average /f exchange_big /= !big_distrl /= big_distrr /=; apply: eq_bigr => i _.
  by rewrite -(dval_var A i n0 h).
have s0 : 0 <= \sum_i off A i by apply: sumr_ge0 => i _; exact: off_ge0.
rewrite [X in _ <= X]mulrAC; apply: ler_wpmul2r s0 _ _ _.
rewrite /spread ler_pdivr_mulr ?exprn_gt0 // expr2 mulrA mulfVK ?gt_eqF //.
by rewrite ler_subl_addr ler_addl ltW // harmonic_gt0.
Qed.
End DiagVar.

(* ---- C99 ---------------------------------------------------------------------------------- *)
Section Frobenius.
Variable F : rcfType.
Variable N : nat.
Implicit Types C P : 'M[F]_N.

(* the sum of the squares of all entries *)
Definition frob C : F := \sum_i \sum_j C i j ^+ 2.
Definition offdiag C : F := \sum_i \sum_(j | j != i) C i j ^+ 2.

Lemma offdiag_le C : 0 <= offdiag C <= frob C.
Proof.
rewrite /offdiag /frob; apply/andP; split.
  by apply: sumr_ge0 => i _; apply: sumr_ge0 => j _; exact: sqr_ge0.
by apply: ler_sum => i _; rewrite [X in _ <= X](bigD1 i) //= ler_addr sqr_ge0.
Qed.

Lemma offdiagE C : offdiag C = \sum_i \sum_j C i j ^+ 2 - \sum_i C i i ^+ 2.
Proof. by rewrite -sumrB; apply: eq_bigr => i _; rewrite [in RHS](bigD1 i) //= addrAC subrr add0r. Qed.

Lemma frob_tr C : frob C = \tr (C^T *m C).
Proof.
rewrite /frob exchange_big /= /mxtrace; apply: eq_bigr => j _; rewrite mxE; apply: eq_bigr => i _.
by rewrite mxE expr2.
Qed.
Lemma frob_trmx C : frob C^T = frob C.
Proof. by rewrite !frob_tr trmxK mxtrace_mulC. Qed.

(* an orthogonal projector does not increase it *)
Lemma frob_proj C P : P^T = P -> P *m P = P -> frob (P *m C) <= frob C.
Proof.
move=> PT PP; have -> : frob C = frob (P *m C) + frob (C - P *m C); last first.
  by rewrite ler_addl; apply: sumr_ge0 => i _; apply: sumr_ge0 => j _; exact: sqr_ge0.
have e1 : (P *m C)^T *m (P *m C) = C^T *m P *m C by rewrite trmx_mul PT mulmxA -[C^T *m P *m P]mulmxA PP.
have e2 : (C - P *m C)^T *m (C - P *m C) = C^T *m C - C^T *m P *m C.
  have -> : C - P *m C = (1%:M - P) *m C by rewrite mulmxBl mul1mx.
  have E : (1%:M - P) *m (1%:M - P) = 1%:M - P by rewrite mulmxBr mulmx1 mulmxBl mul1mx PP subrr subr0.
  have T : (1%:M - P)^T = 1%:M - P by rewrite linearB /= trmx1 PT.
  by rewrite trmx_mul T mulmxA -[C^T *m (1%:M - P) *m (1%:M - P)]mulmxA E mulmxBr mulmx1 mulmxBl.
by rewrite !frob_tr e1 e2 linearB /= addrC subrK.
Qed.
End Frobenius.

Section HppVar.
Variable F : rcfType.
Variables (X : finType) (u : X -> rat) (flip : X -> X).
Hypothesis uP : forall x, 0 <= u x < 1.
Hypothesis flipK : involutive flip.
Hypothesis flipP : forall x, (u (flip x) < 1 / 2%:R) = ~~ (u x < 1 / 2%:R).
Hypothesis X0 : (0 < #|X|)%N.
Variable gauss : seq X -> F * seq X.
Variable N : nat.
Variable qrQ : forall k, 'M[F]_(N, k) -> 'M[F]_(N, minn N k).
Local Notation S := (iso_sampler (tape_unif u) gauss N Rademacher).
Local Notation average := (@average F X).

(* the mean square deviation of tr(V^T B V) / k over sign matrices V *)
Lemma trace_var k L (B : 'M[F]_N) : (0 < k)%N -> (k * N <= L)%N -> B^T = B ->
  average L (fun t => (\tr ((mat_of_cols k (S k t).1)^T *m B *m mat_of_cols k (S k t).1) / k%:R - \tr B) ^+ 2)
  = 2%:R * offdiag B / k%:R.
Proof.
move=> k0 h sB; rewrite offdiagE -(sample_mean_var flipK flipP X0 h k0 sB) /PropUnbiased.average; congr (_ / _).
apply: eq_bigr => t _; congr ((_ / _ - _) ^+ 2); apply: eq_bigr => j _; rewrite !mxE exchange_big /=; apply: eq_bigr => b _.
rewrite mxE big_distrl /=; apply: eq_bigr => a _.
by rewrite !mxE (entry uP gauss h) !mxE [_ * B a b]mulrC -mulrA.
Qed.

(* what the residual probes still see, given the sketch *)
Definition rest (M : 'M[F]_N) k s : 'M[F]_N :=
  let Q := qrQ (M *m sketch S k s) in (1%:M - Q *m Q^T) *m M *m (1%:M - Q *m Q^T).

Lemma basis_proj k (Q : 'M[F]_(N, k)) : Q^T *m Q = 1%:M ->
  (1%:M - Q *m Q^T)^T = 1%:M - Q *m Q^T /\ (1%:M - Q *m Q^T) *m (1%:M - Q *m Q^T) = 1%:M - Q *m Q^T.
Proof.
move=> oQ; split; first by rewrite linearB /= trmx1 trmx_mul trmxK.
rewrite mulmxBr mulmx1 mulmxBl mul1mx -!mulmxA [Q^T *m (Q *m _)]mulmxA oQ mul1mx subrr subr0 //.
Qed.

Theorem C99_variance_given_sketch M m mode full (s : seq X) L :
  let k := `|hpp_nb N m|%N in
  (0 < N)%N -> 0 < hpp_nb N m -> size s = (k * N)%N -> (k * N <= L)%N -> M^T = M ->
  (let Q := qrQ (M *m sketch S k s) in Q^T *m Q = 1%:M) ->
  exists val : seq X -> F,
   [/\ forall t : L.-tuple X, hval (hutchpp_run qrQ (Oper M None) m mode S full (s ++ t)) (val (s ++ t)),
       average L (fun t => val (s ++ t)) = \tr M &
       average L (fun t => (val (s ++ t) - \tr M) ^+ 2) = 2%:R * offdiag (rest M k s) / k%:R].
Proof.
move=> k N0 k0 ss h sM oQ; rewrite /rest.
have [val [hv av]] := C33_hutchpp_unbiased_given_sketch uP flipK flipP X0 mode full N0 k0 ss h oQ.
exists val; split=> //; set Q := qrQ _ in oQ *.
have [PT PP] := basis_proj oQ; set P := 1%:M - Q *m Q^T in PT PP *.
pose V (t : seq X) := mat_of_cols k (S k t).1.
have k1 : (0 < k)%N by rewrite absz_gt0 gt_eqF.
have sR : (P *m M *m P)^T = P *m M *m P by rewrite !trmx_mul PT sM mulmxA.
rewrite -(trace_var k1 h sR); rewrite /PropUnbiased.average; congr (_ / _); apply: eq_bigr => t _; congr (_ ^+ 2).
have E : val (s ++ t) = \tr (Q^T *m M *m Q) + \tr ((V t)^T *m (P *m M *m P) *m V t) / k%:R.
  have eb : basis qrQ M S k (s ++ t) = Q by rewrite /basis /sketch tape_cols_cat ?ss.
  have er : residual S k (s ++ t) = V t.
    by rewrite /residual tape_rest ?size_cat ?ss ?leq_addr // drop_size_cat.
  have [r [e1 <-]] := hv t.
  have [r' [e2]] := @hutchpp_value F _ N qrQ (Oper M None) m mode S full (s ++ t) N0 k0 (fun=> erefl).
  rewrite e1 in e2; case: e2 => <- ->; rewrite /= -/k eb er; congr (_ + \tr _ / _).
  have -> : V t - Q *m Q^T *m V t = P *m V t by rewrite mulmxBl mul1mx.
  by rewrite trmx_mul PT !mulmxA.
have -> : \tr M = \tr (Q^T *m M *m Q) + \tr (P *m M *m P).
  rewrite -[P *m M *m P]mulmxA [\tr (P *m _)]mxtrace_mulC -[M *m P *m P]mulmxA PP mulmxBr mulmx1 linearB /=.
  by rewrite -mulmxA mxtrace_mulC -mulmxA addrC subrK.
by rewrite E opprD addrACA subrr add0r.
Qed.

(* bounded by the part of M outside any B whose columns the sketch captures *)
Lemma rest_le M k s B : let Q := qrQ (M *m sketch S k s) in
  Q^T *m Q = 1%:M -> Q *m Q^T *m B = B -> offdiag (rest M k s) <= frob (M - B).
Proof.
move=> Q oQ hB; have [PT PP] := basis_proj oQ; rewrite /rest -/Q; set P := 1%:M - Q *m Q^T in PT PP *.
have -> : P *m M *m P = P *m (M - B) *m P by rewrite mulmxBr [P *m B]mulmxBl mul1mx hB subrr subr0.
have /andP[_ h] := offdiag_le (P *m (M - B) *m P); apply: (le_trans h).
rewrite -frob_trmx trmx_mul PT; apply: (le_trans (frob_proj _ PT PP)).
by rewrite frob_trmx; exact: frob_proj.
Qed.

Lemma chebyshev L (v : seq X -> F) (c e : F) : 0 < e ->
  fraction F L (fun t => e <= `|v t - c|) <= average L (fun t => (v t - c) ^+ 2) / e ^+ 2.
Proof.
move=> e0; have -> : fraction F L (fun t => e <= `|v t - c|) = fraction F L (fun t => e ^+ 2 <= (v t - c) ^+ 2).
  rewrite !fractionE /PropUnbiased.average; congr (_ / _); apply: eq_bigr => t _; congr (nat_of_bool _)%:R.
  by rewrite -[in RHS](real_normK (num_real (v t - c))) ler_sqr ?nnegrE // ltW.
exact: (markov L (fun t => sqr_ge0 _) (exprn_gt0 2 e0)).
Qed.

(* Hutch++: with a sketch that captures the columns of B, only M - B matters *)
Theorem C99_tail_given_sketch M m mode full (s : seq X) L (B : 'M[F]_N) :
  let k := `|hpp_nb N m|%N in
  (0 < N)%N -> 0 < hpp_nb N m -> size s = (k * N)%N -> (k * N <= L)%N -> M^T = M ->
  (let Q := qrQ (M *m sketch S k s) in Q^T *m Q = 1%:M /\ Q *m Q^T *m B = B) ->
  exists val : seq X -> F,
   (forall t : L.-tuple X, hval (hutchpp_run qrQ (Oper M None) m mode S full (s ++ t)) (val (s ++ t))) /\
   forall e : F, 0 < e -> fraction F L (fun t => e <= `|val (s ++ t) - \tr M|) <=
     2%:R * (\sum_i \sum_j (M i j - B i j) ^+ 2) / (k%:R * e ^+ 2).
Proof.
move=> k N0 k0 ss h sM [oQ hB].
have [val [hv _ va]] := C99_variance_given_sketch mode full N0 k0 ss h sM oQ; exists val; split=> // e e0.
apply: (le_trans (chebyshev L (fun t => val (s ++ t)) (\tr M) e0)); rewrite va.
have k1 : 0 < k%:R :> F by rewrite ltr0n absz_gt0 gt_eqF.
rewrite [(k%:R * _)^-1]invfM [X in _ <= X]mulrA ler_wpmul2r ?invr_ge0 ?exprn_ge0 ?(ltW e0) //.
rewrite ler_wpmul2r ?invr_ge0 ?(ltW k1) // ler_pmul2l ?ltr0n //.
have -> : \sum_i \sum_j (M i j - B i j) ^+ 2 = frob (M - B).
  by apply: eq_bigr => i _; apply: eq_bigr => j _; rewrite !mxE.
exact: rest_le.
Qed.

(* over sketch and residual draws together *)
Lemma average_split K L (v : seq X -> F) :
  average (K + L) v = average K (fun s => average L (fun t => v (s ++ t))).
Proof.
rewrite /PropUnbiased.average.
rewrite (reindex (fun p : K.-tuple X * L.-tuple X => cat_tuple p.1 p.2)) /=; last first.
  have hb (t : (K + L).-tuple X) : (size (take K t) == K)%N && (size (drop K t) == L).
    by rewrite size_takel ?size_drop size_tuple ?leq_addr // addKn !eqxx.
  exists (fun t => (Tuple (proj1 (andP (hb t))), Tuple (proj2 (andP (hb t))))) => [[s t] _|t _].
    by congr pair; apply: val_inj; rewrite /= ?take_size_cat ?drop_size_cat ?size_tuple.
  by apply: val_inj; rewrite /= cat_take_drop.
rewrite -(pair_bigA _ (fun (s : K.-tuple X) (t : L.-tuple X) => v (s ++ t))) /=.
rewrite -big_distrl /= -mulrA -invfM -natrM !card_tuple -expnD addnC //.
Qed.

Theorem C99_hutchpp_tail M m mode full L :
  let k := `|hpp_nb N m|%N in
  (0 < N)%N -> 0 < hpp_nb N m -> (k * N <= L)%N -> M^T = M ->
  (forall Y : 'M[F]_(N, k), (qrQ Y)^T *m qrQ Y = 1%:M) ->
  exists val : seq X -> F,
   (forall t : (k * N + L).-tuple X, hval (hutchpp_run qrQ (Oper M None) m mode S full (t : seq X)) (val t)) /\
   forall e : F, 0 < e -> fraction F (k * N + L) (fun t => e <= `|val t - \tr M|) <=
     2%:R * (\sum_i \sum_j M i j ^+ 2) / (k%:R * e ^+ 2).
Proof.
move=> k N0 k0 h sM oQ.
have [val [hv _]] := C33_hutchpp_unbiased uP flipK flipP X0 gauss M mode full N0 k0 h oQ.
exists val; split=> // e e0; apply: (le_trans (chebyshev _ val (\tr M) e0)).
have k1 : 0 < k%:R :> F by rewrite ltr0n absz_gt0 gt_eqF.
rewrite [(k%:R * _)^-1]invfM [X in _ <= X]mulrA ler_wpmul2r ?invr_ge0 ?exprn_ge0 ?(ltW e0) //.
have c0 : 0 < #|{: (k * N).-tuple X}|%:R :> F by rewrite ltr0n card_tuple expn_gt0 X0.
rewrite average_split {1}/PropUnbiased.average ler_pdivr_mulr // mulr_natr -sumr_const; apply: ler_sum => s _.
have [v [hv' _ va]] := C99_variance_given_sketch mode full N0 k0 (size_tuple s) h sM (oQ _).
have -> : average L (fun t => (val (s ++ t) - \tr M) ^+ 2) = average L (fun t => (v (s ++ t) - \tr M) ^+ 2).
  rewrite /PropUnbiased.average; congr (_ / _); apply: eq_bigr => t _; congr ((_ - _) ^+ 2).
  have [r [e1 <-]] := hv (cat_tuple s t); have [r' [e2 <-]] := hv' t; move: e1; rewrite /= e2 => -[->] //.
rewrite va ler_wpmul2r ?invr_ge0 ?(ltW k1) // ler_pmul2l ?ltr0n //.
have := @rest_le M k s 0 (oQ _); rewrite mulmx0 subr0 => /(_ erefl); apply.
Qed.
End HppVar.

(* ---- examples ------------------------------------------------------------------------------ *)
Section Ex.
Variable F : rcfType.
Variables (tppf : F -> nat -> F) (zq : F -> F).

(* A = [[1,3],[3,4]], three probes: the first entry has mean square error 25/6; the mean of
   three samples would have 3 *)
Example C98_ex gauss : let A : 'M[F]_2 := \matrix_(i, j) (if i == j then (3 * i + 1)%:R else 3%:R) in
  exists val : seq 'I_2 -> 'I_2 -> F,
   (forall t : 6.-tuple 'I_2, exists out,
      diag tppf zq 4 A (iso_sampler (tape_unif (@grid_u 1)) gauss 2 Rademacher) (CCount F 3) false false false (t : seq _) = Some (Ok out) /\
      pyval_x 2 (ret_value (run_ret out)) = [seq Fin (val t i) | i <- enum 'I_2]) /\
   average 6 (fun t => (val t ord0 - 1) ^+ 2) = 25%:R / 6%:R.
Proof.
move=> A; have [//|//|//|//|val [hv va]] := C98_diag_variance (@grid_uP 1 erefl) (@grid_flipK 1) (@grid_flipP 1 erefl) (@grid_card 1 erefl)
  gauss tppf zq (fuel := 4) A (n := 3) false false false (L := 6).
exists val; split=> //; have := va ord0; rewrite mxE eqxx /= muln0 add0n => ->.
rewrite big_ltn // big_ltn // big_ltn // big_geq // big_mkcond !big_ord_recl big_ord0 !mxE /=.
by field.
Qed.

(* a 4 x 4 matrix with blocks [[2,3],[3,4]] and [[1,5],[5,1]], two sketch vectors, basis e1, e2:
   the mean square error is 50, and no more than 52/100 of the tapes are 10 or more away *)
Definition blocks : 'M[F]_4 :=
  \matrix_(i, j) (if (i < 2)%N && (j < 2)%N then (i + j + 2)%:R
                  else if (2 <= i)%N && (2 <= j)%N then (if i == j then 1 else 5%:R) else 0).
Definition block1 : 'M[F]_4 := \matrix_(i, j) (if (i < 2)%N && (j < 2)%N then (i + j + 2)%:R else 0).

Lemma blocks_sym : blocks^T = blocks.
Proof. by apply/matrixP => i j; rewrite !mxE [j == i]eq_sym andbC [(2 <= j)%N && _]andbC addnC [(j + _)%N]addnC [(i + j + _)%N]addnC [(i + j)%N]addnC. Qed.

Lemma qr04 Y : 1%:M - @qr0 F 4 2 Y *m (@qr0 F 4 2 Y)^T = diag_mx (\row_i (2 <= i)%N%:R).
Proof.
rewrite /qr0 tr_pid_mx mul_pid_mx; have -> : minn (minn 4 2) (minn (minn 4 2) (minn 4 2)) = 2%N by [].
apply/matrixP => i j; rewrite !mxE val_eqE; case: eqP => [_|_] /=; last by rewrite subr0.
by rewrite [(i < 2)%N]ltnNge; case: (2 <= i)%N => /=; rewrite ?subr0 ?subrr.
Qed.

Example C99_ex gauss (s : 8.-tuple 'I_2) mode full :
  let S := iso_sampler (tape_unif (@grid_u 1)) gauss 4 Rademacher in
  exists val : seq 'I_2 -> F,
   [/\ forall t : 8.-tuple 'I_2, hval (hutchpp_run (@qr0 F 4) (Oper blocks None) None mode S full (s ++ t)) (val (s ++ t)),
       average 8 (fun t => (val (s ++ t) - 8%:R) ^+ 2) = 50%:R &
       fraction F 8 (fun t => 10%:R <= `|val (s ++ t) - 8%:R|) <= 52%:R / 100%:R].
Proof.
move=> S; have tr : \tr blocks = 8%:R by rewrite /mxtrace !big_ord_recl big_ord0 !mxE /= addr0 -[1]/(1%:R : F) -!natrD.
have [//|//|||||val [hv _ va]] := C99_variance_given_sketch (@grid_uP 1 erefl) (@grid_flipK 1) (@grid_flipP 1 erefl) (@grid_card 1 erefl)
  (gauss := gauss) (qrQ := @qr0 F 4) (M := blocks) (m := None) mode full (s := s) (L := 8).
- by rewrite size_tuple.
- by [].
- exact: blocks_sym.
- exact: qr0_orth.
exists val; split=> //.
  rewrite -tr va.
  rewrite /offdiag /rest qr04 mul_diag_mx mul_mx_diag.
  under eq_bigr => i _ do rewrite big_mkcond !big_ord_recl big_ord0.
  have -> : `|hpp_nb 4 None|%N = 2%N by [].
  rewrite !big_ord_recl big_ord0 !mxE /= !mulr0n !mulr1n !mul0r !mul1r !mulr1 ?expr0n /= ?addr0 ?add0r.
  by field.
rewrite -tr.
have [//|//|||||val' [hv' ta]] := C99_tail_given_sketch (@grid_uP 1 erefl) (@grid_flipK 1) (@grid_flipP 1 erefl) (@grid_card 1 erefl)
  (gauss := gauss) (qrQ := @qr0 F 4) (M := blocks) (m := None) mode full (s := s) (L := 8) (B := block1).
- by rewrite size_tuple.
- by [].
- exact: blocks_sym.
- split; first exact: qr0_orth.
  apply/eqP; rewrite eq_sym -subr_eq0 -{1}[block1]mul1mx -mulmxBl qr04 mul_diag_mx; apply/eqP/matrixP => i j; rewrite !mxE.
  by rewrite [(i < 2)%N]ltnNge; case: (1 < i)%N; rewrite /= ?mulr0 ?mul0r.
have E (t : 8.-tuple 'I_2) : val (s ++ t) = val' (s ++ t).
  by have [r [e1 <-]] := hv t; have [r' [e2 <-]] := hv' t; move: e2; rewrite e1 => -[->].
have t10 : 0 < 10%:R :> F by rewrite ltr0n.
have -> : fraction F 8 (fun t => 10%:R <= `|val (s ++ t) - \tr blocks|) = fraction F 8 (fun t => 10%:R <= `|val' (s ++ t) - \tr blocks|).
  by rewrite !fractionE /average; congr (_ / _); apply: eq_bigr => t _; rewrite (E t).
have h := ta _ t10.
apply: (le_trans h); rewrite le_eqVlt; apply/orP; left; apply/eqP.
have -> : `|hpp_nb 4 None|%N = 2%N by [].
rewrite !big_ord_recl !big_ord0 !mxE /= !subrr !subr0 ?expr0n /= ?addr0 ?add0r.
by field.
Qed.
End Ex.

Print Assumptions C98_diag_variance.
Print Assumptions C98_mean_of_samples_refuted.
Print Assumptions C98_diag_tail.
Print Assumptions C99_variance_given_sketch.
Print Assumptions C99_tail_given_sketch.
Print Assumptions C99_hutchpp_tail.
