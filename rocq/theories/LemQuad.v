(* Matrix facts behind Gaussian quadrature. *)
From mathcomp Require Import all_ssreflect all_algebra zify ring.
From Verif Require Import SpecLanczos SpecTridiag SpecQuad LemSpectral.
Set Implicit Arguments.
Unset Strict Implicit.
Unset Printing Implicit Defensive.
Import Order.TTheory GRing.Theory Num.Theory.
Local Open Scope ring_scope.

Section Quad.
Variable F : rcfType.

Lemma colM m n p (A : 'M[F]_(m, n)) (B : 'M[F]_(n, p)) j : col j (A *m B) = A *m col j B.
Proof. by apply/matrixP => i l; rewrite !mxE; apply: eq_bigr => a _; rewrite !mxE. Qed.

Lemma mxpow_simi k (T Y D : 'M[F]_k) i : Y^T *m Y = 1%:M -> T *m Y = Y *m D -> mxpow T i *m Y = Y *m mxpow D i.
Proof. by move=> oY h; elim: i => [|i IH] /=; rewrite ?mul1mx ?mulmx1 // -mulmxA IH !mulmxA h. Qed.

Lemma mxpow_diag k (w : 'rV[F]_k) i : mxpow (diag_mx w) i = diag_mx (\row_j w 0 j ^+ i).
Proof.
elim: i => [|i IH] /=.
  by apply/matrixP => a b; rewrite !mxE expr0.
by rewrite IH mulmx_diag; congr diag_mx; apply/rowP => j; rewrite !mxE exprS.
Qed.

Lemma mxpowD k (A : 'M[F]_k) i j : mxpow A (i + j) = mxpow A i *m mxpow A j.
Proof. by elim: i => [|i IH] /=; rewrite ?mul1mx // IH mulmxA. Qed.

Lemma mxpowSr k (A : 'M[F]_k) i : mxpow A i.+1 = mxpow A i *m A.
Proof. by rewrite -addn1 mxpowD /= mulmx1. Qed.

Lemma mxpow_tr k (A : 'M[F]_k) i : A^T = A -> (mxpow A i)^T = mxpow A i.
Proof.
move=> sA; elim: i => [|i IH]; first by rewrite trmx1.
by rewrite [mxpow _ _.+1]/= trmx_mul IH sA -mxpowSr.
Qed.

Lemma polymx_row k (p : {poly F}) (A : 'M[F]_k) m (x : 'M[F]_(m, k)) :
  x *m polymx p A = \sum_(i < size p) p`_i *: (x *m mxpow A i).
Proof. by rewrite mulmx_sumr; apply: eq_bigr => i _; rewrite scalemxAr. Qed.

Lemma polymx_col k (p : {poly F}) (A : 'M[F]_k) m (x : 'M[F]_(k, m)) :
  polymx p A *m x = \sum_(i < size p) p`_i *: (mxpow A i *m x).
Proof. by rewrite mulmx_suml; apply: eq_bigr => i _; rewrite scalemxAl. Qed.

(* p(T) = Y p(D) Y^T *)
Lemma polymx_eig k (T Y : 'M[F]_k) (w : 'rV[F]_k) p : Y^T *m Y = 1%:M -> T *m Y = Y *m diag_mx w ->
  polymx p T = Y *m diag_mx (\row_j p.[w 0 j]) *m Y^T.
Proof.
move=> oY h; have oY' : Y *m Y^T = 1%:M by apply: mulmx1C.
have -> : polymx p T = polymx p T *m Y *m Y^T by rewrite -mulmxA oY' mulmx1.
congr (_ *m _); rewrite polymx_col.
have -> : diag_mx (\row_j p.[w 0 j]) = \sum_(i < size p) p`_i *: mxpow (diag_mx w) i.
  apply/matrixP => a b; rewrite summxE !mxE -[_ *+ _]mulr_natr horner_coef big_distrl /=.
  by apply: eq_bigr => i _; rewrite mxpow_diag !mxE mulr_natr mulrnAr.
by rewrite mulmx_sumr; apply: eq_bigr => i _; rewrite -scalemxAr (mxpow_simi _ oY h).
Qed.

Lemma quad_sum k (T : 'M[F]_k) w Y (i0 : 'I_k) p : is_eigh T w Y ->
  polymx p T i0 i0 = \sum_(j < k) (nth [::] Y i0)`_j ^+ 2 * p.[w`_j].
Proof.
case=> sw sY aY oY h; rewrite (polymx_eig p oY h) mxE; apply: eq_bigr => j _.
rewrite !mxE (bigD1 j) //= big1 ?addr0 => [|l lj]; rewrite !mxE.
  by rewrite eqxx mulr1n expr2 mulrAC.
by rewrite (negbTE lj) mulr0n mulr0.
Qed.

Lemma row_unit k (T : 'M[F]_k) w Y (i0 : 'I_k) : is_eigh T w Y -> \sum_(j < k) (nth [::] Y i0)`_j ^+ 2 = 1.
Proof.
move=> h; have := quad_sum i0 1 h; rewrite (eq_bigr (fun j : 'I_k => (nth [::] Y i0)`_j ^+ 2)).
  by move=> <-; rewrite /polymx size_poly1 big_ord1 coefC eqxx scale1r /= mxE eqxx.
by move=> j _; rewrite hornerC mulr1.
Qed.

(* ---- Krylov exactness ---------------------------------------------------------- *)
Section Krylov.
Variables (n k : nat).
Variable A : 'M[F]_n.
Hypothesis sA : A^T = A.
Variable d e : nat -> F.
Local Notation T := (jacobi k d e).
Variable Q : 'M[F]_(n, k).
Variable r : 'cV[F]_n.
Hypothesis QQ : Q^T *m Q = 1%:M.
Hypothesis Qr : Q^T *m r = 0.
Hypothesis AQ : forall j : 'I_k, A *m col j Q = Q *m col j T + (j.+1 == k)%:R *: r.
Variable i0 : 'I_k.
Hypothesis i00 : i0 = 0%N :> nat.
Local Notation e0 := (delta_mx i0 0 : 'cV[F]_k).

Lemma jac_pow_low m (j : 'I_k) : (m < j)%N -> (mxpow T m *m e0) j 0 = 0.
Proof.
elim: m j => [|m IH] j hj /=.
  by rewrite mul1mx mxE -val_eqE /= i00 gtn_eqF.
rewrite -mulmxA mxE big1 // => l _; have [h|h] := ltnP m l; first by rewrite IH // mulr0.
by rewrite mxE; do !case: eqP => //; rewrite ?mul0r //; move: (nat_of_ord j) (nat_of_ord l) hj h => a b; lia.
Qed.

Lemma AQmul (x : 'cV[F]_k) : A *m (Q *m x) = Q *m (T *m x) + (\sum_(j < k | j.+1 == k) x j 0) *: r.
Proof.
have E m (M : 'M[F]_(m, k)) : M *m x = \sum_j x j 0 *: col j M.
  by apply/matrixP => a b; rewrite ord1 mxE summxE; apply: eq_bigr => j _; rewrite !mxE mulrC.
rewrite [Q *m x]E mulmx_sumr (eq_bigr (fun j : 'I_k => x j 0 *: (Q *m col j T) + (x j 0 * (j.+1 == k)%:R) *: r)).
  rewrite big_split /= [T *m x]E mulmx_sumr; congr (_ + _).
    by apply: eq_bigr => j _; rewrite -scalemxAr.
  rewrite -scaler_suml; congr (_ *: _); rewrite [RHS]big_mkcond; apply: eq_bigr => j _.
  by case: ifP; rewrite ?mulr1 ?mulr0.
by move=> j _; rewrite -scalemxAr AQ scalerDr scalerA.
Qed.

Lemma krylov_pow m : (m < k)%N -> mxpow A m *m (Q *m e0) = Q *m (mxpow T m *m e0).
Proof.
elim: m => [|m IH] hm /=; first by rewrite !mul1mx.
rewrite -mulmxA IH 1?ltnW // AQmul big1 ?scale0r ?addr0 -?mulmxA // => j /eqP jk.
by apply: jac_pow_low; lia.
Qed.

Lemma QAQ : Q^T *m (A *m Q) = T.
Proof.
apply/matrixP => i j; have -> : (Q^T *m (A *m Q)) i j = col j (Q^T *m (A *m Q)) i 0 by rewrite [RHS]mxE.
by rewrite !colM AQ mulmxDr mulmxA QQ mul1mx -scalemxAr Qr scaler0 addr0 mxE.
Qed.

Local Notation q0 := (Q *m e0).

(* moments up to 2k - 1 *)
Lemma krylov_moment m : (m < k.*2)%N -> (q0^T *m mxpow A m *m q0) 0 0 = mxpow T m i0 i0.
Proof.
have sT : T^T = T := jacobi_sym k d e.
have E (M : 'M[F]_k) : (e0^T *m M *m e0) 0 0 = M i0 i0.
  by rewrite trmx_delta -rowE -colE !mxE.
have half a b : (a < k)%N -> (b < k)%N -> q0^T *m mxpow A (a + b) *m q0 = e0^T *m mxpow T (a + b) *m e0.
  move=> ha hb; rewrite !mxpowD -!mulmxA krylov_pow // !mulmxA.
  have -> : q0^T *m mxpow A a = (mxpow A a *m q0)^T by rewrite [RHS]trmx_mul mxpow_tr.
  by rewrite krylov_pow // !trmx_mul mxpow_tr // -!mulmxA (mulmxA Q^T) QQ mul1mx.
move=> hm; rewrite -E; have [h|h] := ltnP m (k.*2.-1).
  have -> : m = (minn m k.-1 + (m - minn m k.-1))%N by lia.
  by rewrite half //; lia.
have -> : m = ((k.-1).+1 + k.-1)%N by lia.
have kk : (k.-1 < k)%N by lia.
rewrite mxpowD mxpowSr (mxpowD T) (mxpowSr T).
have -> : q0^T *m (mxpow A k.-1 *m A *m mxpow A k.-1) *m q0 = (mxpow A k.-1 *m q0)^T *m A *m (mxpow A k.-1 *m q0).
  by rewrite [X in _ = X *m _ *m _]trmx_mul mxpow_tr // !mulmxA.
rewrite krylov_pow // trmx_mul -!mulmxA (mulmxA A) (mulmxA Q^T) QAQ.
by rewrite !trmx_mul mxpow_tr // !mulmxA.
Qed.

Lemma krylov_quad (p : {poly F}) : (size p <= k.*2)%N -> (q0^T *m polymx p A *m q0) 0 0 = polymx p T i0 i0.
Proof.
move=> hp; rewrite polymx_row mulmx_suml summxE /polymx summxE; apply: eq_bigr => i _.
by rewrite -scalemxAl [LHS]mxE [RHS]mxE krylov_moment //; exact: leq_trans (ltn_ord i) hp.
Qed.

Lemma krylov_fun (p : {poly F}) : (size p <= k)%N -> polymx p A *m q0 = Q *m (polymx p T *m e0).
Proof.
move=> hp; rewrite !polymx_col mulmx_sumr; apply: eq_bigr => i _.
by rewrite krylov_pow ?scalemxAr //; exact: leq_trans (ltn_ord i) hp.
Qed.

(* an invariant subspace *)
Lemma inv_fun (p : {poly F}) : r = 0 -> polymx p A *m q0 = Q *m (polymx p T *m e0).
Proof.
move=> r0; have AQT : A *m Q = Q *m T.
  by apply/matrixP => i j; move/colP/(_ i): (AQ j); rewrite r0 scaler0 addr0 -!colM !mxE.
rewrite !polymx_col mulmx_sumr; apply: eq_bigr => i _; rewrite -scalemxAr; congr (_ *: _).
elim: (nat_of_ord i) => [|m IH] /=; first by rewrite !mul1mx.
by rewrite -mulmxA IH !mulmxA AQT.
Qed.

Lemma inv_quad (p : {poly F}) : r = 0 -> (q0^T *m polymx p A *m q0) 0 0 = polymx p T i0 i0.
Proof.
move=> r0; rewrite -mulmxA inv_fun // trmx_mul -mulmxA (mulmxA Q^T) QQ mul1mx mulmxA.
by rewrite trmx_delta -rowE -colE !mxE.
Qed.
End Krylov.

(* ---- a zero coupling splits the matrix -------------------------------------------- *)
Section Split.
Variables (k s : nat).
Variables d e d' e' : nat -> F.
Hypothesis sk : (s <= k)%N.
Hypothesis dd : forall i, (i < s)%N -> d i = d' i.
Hypothesis ee : forall i, (i < s)%N -> e i = e' i.
Hypothesis es : (s < k)%N -> e s = 0.
Variable i0 : 'I_k.
Variable j0 : 'I_s.
Hypothesis i00 : i0 = 0%N :> nat.
Hypothesis j00 : j0 = 0%N :> nat.

Definition emb : 'M[F]_(k, s) := \matrix_(i, j) (i == j :> nat)%:R.

Lemma jac_emb : jacobi k d e *m emb = emb *m jacobi s d' e'.
Proof.
apply/matrixP => i j; rewrite !mxE; pose j' := widen_ord sk j.
rewrite (bigD1 j') //= [X in _ + X]big1 ?addr0 => [|l lj]; last first.
  by rewrite !mxE (negbTE (_ : l != j :> nat)) ?mulr0 //; apply: contra lj => /eqP h; apply/eqP/val_inj.
rewrite !mxE eqxx mulr1 /=.
have [h|h] := ltnP i s.
  rewrite (bigD1 (Ordinal h)) //= [X in _ + X]big1 ?addr0 => [|l lj]; last first.
    by rewrite !mxE (negbTE (_ : i != l :> nat)) ?mul0r //; apply: contra lj => /eqP h'; apply/eqP/val_inj.
  rewrite !mxE eqxx mul1r /=; case: eqP => [|_]; first by move=> _; rewrite dd.
  by case: eqP => [|_]; [rewrite ee|case: eqP => [|_] //; rewrite ee].
rewrite big1 => [|l _]; last by rewrite !mxE (negbTE (_ : i != l :> nat)) ?mul0r //; have := ltn_ord l; lia.
have hj := ltn_ord j; have hi := ltn_ord i.
have -> : (i == j :> nat) = false by lia.
have -> : (i.+1 == j :> nat) = false by lia.
by case: eqP => // ji; rewrite -ji (_ : j.+1 = s) ?es //; lia.
Qed.

Lemma emb_e0 : emb *m (delta_mx j0 0 : 'cV[F]_s) = delta_mx i0 0.
Proof. by rewrite -colE; apply/colP => i; rewrite !mxE -val_eqE /= i00 j00 andbT. Qed.

Lemma pow_emb m : mxpow (jacobi k d e) m *m emb = emb *m mxpow (jacobi s d' e') m.
Proof. by elim: m => [|m IH] /=; rewrite ?mul1mx ?mulmx1 // -mulmxA IH !mulmxA jac_emb. Qed.

Lemma poly_emb p : polymx p (jacobi k d e) *m (delta_mx i0 0 : 'cV[F]_k) = emb *m (polymx p (jacobi s d' e') *m (delta_mx j0 0 : 'cV[F]_s)).
Proof.
rewrite -emb_e0 !polymx_col mulmx_sumr; apply: eq_bigr => i _.
by rewrite -scalemxAr !mulmxA pow_emb.
Qed.

Lemma poly00_emb p : polymx p (jacobi k d e) i0 i0 = polymx p (jacobi s d' e') j0 j0.
Proof.
have -> : polymx p (jacobi k d e) i0 i0 = (polymx p (jacobi k d e) *m (delta_mx i0 0 : 'cV[F]_k)) i0 0 by rewrite -colE mxE.
rewrite poly_emb -colE mxE (bigD1 j0) //= big1 ?addr0 => [|l lj]; rewrite !mxE i00 ?j00 ?eqxx ?mul1r //.
by rewrite -j00 eq_sym val_eqE (negbTE lj) mul0r.
Qed.
End Split.
End Quad.
