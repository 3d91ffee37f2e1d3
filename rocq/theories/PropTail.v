(* C94: how often hutch's value is far from the trace. *)
From Coq Require Import String.
From mathcomp Require Import all_ssreflect all_algebra zify ring.
From Verif Require Import Base Spec ModelStats LemStats PropStats ModelEstimators LemEstimators LemEst2
  PropEstimators ModelTyping ModelRandom ModelTrace LemTrace PropTrace PropUnbiased.
Set Implicit Arguments.
Unset Strict Implicit.
Unset Printing Implicit Defensive.
Import Order.TTheory GRing.Theory Num.Theory.
Local Open Scope ring_scope.

Section Tail.
Variable F : rcfType.
Variables (X : finType) (u : X -> rat) (flip : X -> X).
Hypothesis uP : forall x, 0 <= u x < 1.
Hypothesis flipK : involutive flip.
Hypothesis flipP : forall x, (u (flip x) < 1 / 2%:R) = ~~ (u x < 1 / 2%:R).
Hypothesis X0 : (0 < #|X|)%N.
Variable gauss : seq X -> F * seq X.
Variables (tppf : F -> nat -> F) (zq : F -> F).
Variable N : nat.
Local Notation S := (iso_sampler (tape_unif u) gauss N Rademacher).
Local Notation drawn full cb batch n := (nbatch n (eff full cb batch) * eff full cb batch)%N.

(* the fraction of tapes of length L satisfying P *)
Definition fraction L (P : seq X -> bool) : F := #|[set t : L.-tuple X | P t]|%:R / #|{: L.-tuple X}|%:R.

Lemma fractionE L P : fraction L P = average L (fun t => (P t)%:R : F).
Proof.
rewrite /fraction /average -sum1_card natr_sum big_mkcond; congr (_ / _); apply: eq_bigr => t _.
by rewrite inE; case: (P t).
Qed.

Lemma fraction_bounds L P : 0 <= fraction L P <= 1.
Proof.
have c0 : 0 < #|{: L.-tuple X}|%:R :> F by rewrite ltr0n card_tuple expn_gt0 X0.
by rewrite /fraction divr_ge0 ?ler0n //= ler_pdivr_mulr // mul1r ler_nat max_card.
Qed.

Lemma markov L (f : seq X -> F) (e : F) : (forall t, 0 <= f t) -> 0 < e ->
  fraction L (fun t => e <= f t) <= average L f / e.
Proof.
move=> f0 e0; rewrite fractionE /average -mulrA [_^-1 / e]mulrC mulrA ler_wpmul2r ?invr_ge0 ?ler0n //.
rewrite big_distrl /=; apply: ler_sum => t _; rewrite ler_pdivl_mulr //.
by have [h|h] := leP e (f t); [rewrite mulr1n mul1r|rewrite mulr0n mul0r].
Qed.

(* Chebyshev: among all equally likely tapes, at most off / (m e^2) of them give a value e or more away from
   the trace; m the number of probes drawn, off twice the sum of squares of the off-diagonal entries *)
Theorem C94_tail fuel (M : 'M[F]_N) batch n r full cb L :
  (0 < N)%N -> 0 < batch -> 0 < n -> (nbatch n (eff full cb batch) < fuel)%N -> (drawn full cb batch n * N <= L)%N -> M^T = M ->
  exists val : seq X -> F,
   (forall t : L.-tuple X,
      value_is (hutch tppf zq fuel (Oper M None) batch S (CCount F n) r full cb (t : seq X)) (val t)) /\
   forall e : F, 0 < e -> fraction L (fun t => e <= `|val t - \tr M|) <=
     2%:R * (\sum_i \sum_(j | j != i) M i j ^+ 2) / ((drawn full cb batch n)%:R * e ^+ 2).
Proof.
move=> N0 b0 n0 hf hL sy; have [val [hv hva]] := C27_hutch_variance uP flipK flipP X0 gauss tppf zq r N0 b0 n0 hf hL sy.
exists val; split=> // e e0.
have -> : fraction L (fun t => e <= `|val t - \tr M|) = fraction L (fun t => e ^+ 2 <= (val t - \tr M) ^+ 2).
  rewrite !fractionE /average; congr (_ / _); apply: eq_bigr => t _; congr (nat_of_bool _)%:R.
  by rewrite -[in RHS](real_normK (num_real (val t - \tr M))) ler_sqr ?nnegrE // ltW.
apply: (le_trans (markov _ (fun t => sqr_ge0 _) (exprn_gt0 2 e0))).
rewrite hva -sumrB (eq_bigr (fun i => \sum_(j | j != i) M i j ^+ 2)) => [|i _]; last first.
  by rewrite (bigD1 i) //= addrAC subrr add0r.
by rewrite -[X in X <= _]mulrA -[in X in X <= _]invfM.
Qed.

(* enough probes *)
Theorem C94_sample_size fuel (M : 'M[F]_N) batch n r full cb L (e d : F) :
  (0 < N)%N -> 0 < batch -> 0 < n -> (nbatch n (eff full cb batch) < fuel)%N -> (drawn full cb batch n * N <= L)%N -> M^T = M ->
  0 < e -> 0 < d -> 2%:R * (\sum_i \sum_(j | j != i) M i j ^+ 2) <= d * e ^+ 2 * n%:~R ->
  exists val : seq X -> F,
   (forall t : L.-tuple X,
      value_is (hutch tppf zq fuel (Oper M None) batch S (CCount F n) r full cb (t : seq X)) (val t)) /\
   fraction L (fun t => e <= `|val t - \tr M|) <= d.
Proof.
move=> N0 b0 n0 hf hL sy e0 d0 h.
have [val [hv ht]] := C94_tail r N0 b0 n0 hf hL sy; exists val; split=> //; apply: (le_trans (ht e e0)).
have m0 := m_gt0 (eff_gt0 full cb b0) n0; set m := (nbatch _ _ * _)%N in m0 *.
rewrite ler_pdivr_mulr ?mulr_gt0 ?ltr0n ?exprn_gt0 //; apply: (le_trans h).
have -> : d * (m%:R * e ^+ 2) = d * e ^+ 2 * m%:R by rewrite [X in d * X]mulrC mulrA.
apply: ler_wpmul2l; first by apply: mulr_ge0; [|apply: exprn_ge0]; apply: ltW.
have := nbatchP n (nbatch n (eff full cb batch)) (eff_gt0 full cb b0); rewrite leqnn -/m => nm.
by rewrite pmulrn ler_int.
Qed.
End Tail.

(* A = [[1,3],[3,4]], 400 probes, tapes of 800 draws from {0, 1/2}: within 1 of the trace 5 for more than 9 in 10 tapes *)
Example C94_ex (F : rcfType) gauss (tppf : F -> nat -> F) (zq : F -> F) :
  exists val : seq 'I_2 -> F,
   (forall t : 800.-tuple 'I_2,
      value_is (hutch tppf zq 401 (Oper (\matrix_(i, j) (if i == j then (3 * i + 1)%:R else 3%:R)) None) 32
        (iso_sampler (tape_unif (@grid_u 1)) gauss 2 Rademacher) (CCount F 400) false false false (t : seq _)) (val t)) /\
   fraction F 800 (fun t => 1 <= `|val t - 5%:R|) <= 9%:R / 100%:R.
Proof.
set M := (\matrix_(i, j) _ : 'M[F]_2).
have sy : M^T = M by apply/matrixP => i j; rewrite !mxE eq_sym; case: eqP => // ->.
have tr : \tr M = 5%:R by rewrite /mxtrace !big_ord_recl big_ord0 !mxE /= addr0 -natrD.
have d0 : 0 < 9%:R / 100%:R :> F by rewrite divr_gt0 ?ltr0n.
rewrite -tr; apply: (C94_sample_size (@grid_uP 1 erefl) (@grid_flipK 1) (@grid_flipP 1 erefl) (@grid_card 1 erefl)) => //.
have -> : \sum_i \sum_(j | j != i) M i j ^+ 2 = 18%:R.
  by under eq_bigr => i _ do rewrite big_mkcond !big_ord_recl big_ord0; rewrite !big_ord_recl big_ord0 !mxE /=; ring.
have -> : 9%:R / 100%:R * 1 ^+ 2 * 400%:~R = 36%:R :> F by rewrite -pmulrn; field.
by rewrite -natrM.
Qed.

Print Assumptions C94_tail.
Print Assumptions C94_sample_size.
