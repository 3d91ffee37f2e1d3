(* Proofs about the statistics model. *)
From mathcomp Require Import all_ssreflect all_algebra.
From mathcomp Require Import ring.
From Verif Require Import Base Spec ModelStats.
Set Implicit Arguments.
Unset Strict Implicit.
Unset Printing Implicit Defensive.
Import Order.TTheory GRing.Theory Num.Theory.
Local Open Scope ring_scope.

Section Lem.
Variable F : rcfType.
Implicit Types (X Y : seq (seq F)) (s : seq F).

Lemma size_neq0 (n : nat) : (0 < n)%N -> n%:R != 0 :> F.
Proof. by move=> h; rewrite pnatr_eq0 -lt0n. Qed.

Lemma sum_avg s : \sum_(x <- s) x = (size s)%:R * avg s.
Proof.
rewrite /avg; case: s => [|x s]; first by rewrite big_nil /= mul0r.
rewrite mulrC divfK //; exact: size_neq0.
Qed.

Lemma sum_cavg X i : \sum_(x <- X) x`_i = (size X)%:R * cavg X i.
Proof. by rewrite /cavg -(size_map (fun x => x`_i) X) -sum_avg big_map. Qed.

Lemma cavg_cat X Y i : (0 < size Y)%N ->
  cavg (X ++ Y) i =
  cavg X i + ((size Y)%:R / (size X + size Y)%:R) * (cavg Y i - cavg X i).
Proof.
move=> hY.
have hn : (size X + size Y)%:R != 0 :> F by rewrite size_neq0 // addn_gt0 hY orbT.
have e := sum_cavg (X ++ Y) i.
rewrite big_cat /= !sum_cavg size_cat in e.
apply: (mulfI hn); rewrite -e.
rewrite natrD in hn *.
by field.
Qed.

Lemma scatter_alt X i j :
  scatter X i j = \sum_(x <- X) x`_i * x`_j - (size X)%:R * cavg X i * cavg X j.
Proof.
rewrite /scatter.
have -> : \sum_(x <- X) (x`_i - cavg X i) * (x`_j - cavg X j) =
  \sum_(x <- X) (x`_i * x`_j) - (\sum_(x <- X) x`_i) * cavg X j
  - cavg X i * (\sum_(x <- X) x`_j) + (size X)%:R * (cavg X i * cavg X j).
  elim: (X) (cavg X i) (cavg X j) => [|x Y IH] a b.
    by rewrite !big_nil /=; ring.
  rewrite !big_cons IH /= -[(size Y).+1]addn1 natrD; ring.
rewrite !sum_cavg; ring.
Qed.

Lemma scatter_cat X Y i j : (0 < size Y)%N ->
  scatter (X ++ Y) i j =
  scatter X i j + (scatter Y i j +
   ((size X * size Y)%:R / (size X + size Y)%:R) *
     ((cavg Y i - cavg X i) * (cavg Y j - cavg X j))).
Proof.
move=> hY.
have hn : (size X + size Y)%:R != 0 :> F by rewrite size_neq0 // addn_gt0 hY orbT.
rewrite !scatter_alt big_cat /= !cavg_cat // size_cat natrM.
rewrite natrD in hn *.
by field.
Qed.

Lemma batch_mean_cavg X i : batch_mean X i = cavg X i.
Proof. by rewrite /batch_mean /cavg /avg big_map size_map. Qed.

Lemma cavg_nil i : cavg ([::] : seq (seq F)) i = 0.
Proof. by rewrite /cavg /avg big_nil mul0r. Qed.

Lemma scatter_nil i j : scatter ([::] : seq (seq F)) i j = 0.
Proof. by rewrite /scatter big_nil. Qed.

Lemma mkseq0 d : mkseq (fun _ => 0 : F) d = zeros F d.
Proof. by apply/(@eq_from_nth _ 0); rewrite ?size_mkseq ?size_nseq // => i h; rewrite nth_mkseq // nth_nseq h. Qed.

Arguments mu_step : simpl never.
Arguments S_step : simpl never.
(* one successful batch *)
Lemma mu_step_spec d X Y : (0 < size Y)%N ->
  mu_step d (size X) (Vec (mkseq (cavg X) d)) Y = Vec (mkseq (cavg (X ++ Y)) d).
Proof.
case: Y => // y Y hY; rewrite /mu_step; congr Vec.
apply/(@eq_from_nth _ 0); rewrite ?size_mkseq // => i h.
by rewrite !nth_mkseq // batch_mean_cavg cavg_cat.
Qed.

Lemma S_step_spec d X Y : (0 < size Y)%N ->
  S_step d (size X) (Vec (mkseq (cavg X) d)) (Mat (mkseq (fun i => mkseq (scatter X i) d) d)) Y
  = Mat (mkseq (fun i => mkseq (scatter (X ++ Y) i) d) d).
Proof.
case: Y => // y Y hY; rewrite /S_step; congr Mat.
apply/(@eq_from_nth _ [::]); rewrite ?size_mkseq // => i hi; rewrite !nth_mkseq //.
apply/(@eq_from_nth _ 0); rewrite ?size_mkseq // => j hj; rewrite !nth_mkseq //.
rewrite !batch_mean_cavg scatter_cat //.
Qed.

(* a batch acceptable for dimension d *)
Definition good_batch (d : nat) (x : arr F) : bool :=
  (cols_of x == d) && (0 < size (rows_of x))%N.

Definition mean_of (d : nat) X : mean F := MkMean d (size X) (Vec (mkseq (cavg X) d)).
Definition cov_of (d : nat) X : cov F :=
  MkCov d (size X) (Vec (mkseq (cavg X) d)) (Mat (mkseq (fun i => mkseq (scatter X i) d) d)).

Lemma mean_init_of d : mean_init F d = mean_of d [::].
Proof.
rewrite /mean_init /mean_of /= -mkseq0; congr MkMean; congr Vec.
by apply: eq_mkseq => i; rewrite cavg_nil.
Qed.

Lemma cov_init_of d : cov_init F d = cov_of d [::].
Proof.
rewrite /cov_init /cov_of /= -mkseq0; congr MkCov.
  by congr Vec; apply: eq_mkseq => i; rewrite cavg_nil.
congr Mat; apply/(@eq_from_nth _ [::]); rewrite ?size_nseq ?size_mkseq // => i hi.
rewrite nth_nseq hi nth_mkseq //; by apply: eq_mkseq => j; rewrite scatter_nil.
Qed.

Lemma mean_update_good d X x : good_batch d x ->
  mean_update (mean_of d X) x = (mean_of d (X ++ rows_of x), None).
Proof.
rewrite /good_batch /cols_of /rows_of /mean_update; case: (as_rows x) => c Y /= /andP[/eqP -> hY].
rewrite eqxx /= addn_eq0 [size Y == _]eqn0Ngt hY andbF.
by rewrite mu_step_spec // /mean_of size_cat.
Qed.

Lemma cov_update_good d X x : good_batch d x ->
  cov_update (cov_of d X) x = (cov_of d (X ++ rows_of x), None).
Proof.
rewrite /good_batch /cols_of /rows_of /cov_update; case: (as_rows x) => c Y /= /andP[/eqP -> hY].
rewrite eqxx /= addn_eq0 [size Y == _]eqn0Ngt hY andbF.
by rewrite mu_step_spec // S_step_spec // /cov_of size_cat.
Qed.

Lemma mean_hist_gen d h : all (good_batch d) h -> forall X,
  run_hist (@mean_update F) (mean_of d X) h = Some (mean_of d (X ++ all_rows h)).
Proof.
elim: h => [|x h IH] /=; first by rewrite /all_rows /= => _ X; rewrite cats0.
by case/andP=> gx gh X; rewrite mean_update_good // IH // /all_rows /= catA.
Qed.

Lemma cov_hist_gen d h : all (good_batch d) h -> forall X,
  run_hist (@cov_update F) (cov_of d X) h = Some (cov_of d (X ++ all_rows h)).
Proof.
elim: h => [|x h IH] /=; first by rewrite /all_rows /= => _ X; rewrite cats0.
by case/andP=> gx gh X; rewrite cov_update_good // IH // /all_rows /= catA.
Qed.

Lemma mean_hist d h : all (good_batch d) h ->
  run_hist (@mean_update F) (mean_init F d) h = Some (mean_of d (all_rows h)).
Proof. by move=> gh; rewrite mean_init_of mean_hist_gen. Qed.

Lemma cov_hist d h : all (good_batch d) h ->
  run_hist (@cov_update F) (cov_init F d) h = Some (cov_of d (all_rows h)).
Proof. by move=> gh; rewrite cov_init_of cov_hist_gen. Qed.

(* permutation invariance of the specification *)
Lemma cavg_perm X Y i : perm_eq X Y -> cavg X i = cavg Y i.
Proof.
move=> p; rewrite /cavg /avg !size_map (perm_size p); congr (_ / _).
by rewrite !big_map; apply: perm_big.
Qed.

Lemma scatter_perm X Y i j : perm_eq X Y -> scatter X i j = scatter Y i j.
Proof.
by move=> p; rewrite /scatter !(cavg_perm _ p); apply: perm_big.
Qed.

Lemma scatter_sym X i j : scatter X i j = scatter X j i.
Proof. by rewrite /scatter; apply: eq_bigr => x _; rewrite mulrC. Qed.

Lemma scatter_psd d X (v : nat -> F) :
  0 <= \sum_(i < d) \sum_(j < d) v i * scatter X i j * v j.
Proof.
have -> : \sum_(i < d) \sum_(j < d) v i * scatter X i j * v j =
  \sum_(x <- X) (\sum_(i < d) v i * (x`_i - cavg X i)) ^+ 2.
  under [RHS]eq_bigr do rewrite expr2 mulr_suml.
  rewrite [RHS]exchange_big /=; apply: eq_bigr => i _.
  under [RHS]eq_bigr do rewrite mulr_sumr.
  rewrite [RHS]exchange_big /=; apply: eq_bigr => j _.
  rewrite /scatter mulr_sumr mulr_suml; apply: eq_bigr => x _.
  by move: (v i) (v j) (x`_i - _) (x`_j - _) => a b c e; ring.
by apply: sumr_ge0 => x _; rewrite sqr_ge0.
Qed.

End Lem.
