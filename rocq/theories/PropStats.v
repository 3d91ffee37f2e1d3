(* Properties C01-C07: running statistics (stats.py). *)
From mathcomp Require Import all_ssreflect all_algebra.
From mathcomp Require Import ring.
From Coq Require Import String.
From Verif Require Import Base Spec ModelStats LemStats.
Set Implicit Arguments.
Unset Strict Implicit.
Unset Printing Implicit Defensive.
Import Order.TTheory GRing.Theory Num.Theory.
Local Open Scope ring_scope.

Section Props.
Variable F : rcfType.

(* histories made of non-empty batches *)
Definition nonempty_hist (h : seq (arr F)) : bool :=
  all (fun x => 0 < size (rows_of x))%N h.

(* a per-coordinate quantity as the API returns it: a float for dim 1, an
   array otherwise *)
Definition as_read (d : nat) (f : nat -> F) : pyval F :=
  if d == 1%N then PFloat (Fin (f 0%N)) else PArr (Vec (mkseq f d)).
Definition as_read2 (d : nat) (f : nat -> nat -> F) : pyval F :=
  if d == 1%N then PFloat (Fin (f 0%N 0%N))
  else PMat (Mat (mkseq (fun i => mkseq (f i) d) d)).

Lemma mean_ok_good d X h st :
  nonempty_hist h -> run_hist (@mean_update F) (mean_of d X) h = Some st ->
  all (good_batch d) h.
Proof.
elim: h X => [//|x h IH] X /= /andP[hx hh].
case E: (good_batch d x).
  by rewrite mean_update_good // => /IH -> .
move: E; rewrite /good_batch hx andbT /cols_of /mean_update.
by case: (as_rows x) => c Y /= ->.
Qed.

Lemma cov_ok_good d X h st :
  nonempty_hist h -> run_hist (@cov_update F) (cov_of d X) h = Some st ->
  all (good_batch d) h.
Proof.
elim: h X => [//|x h IH] X /= /andP[hx hh].
case E: (good_batch d x).
  by rewrite cov_update_good // => /IH -> .
move: E; rewrite /good_batch hx andbT /cols_of /cov_update.
by case: (as_rows x) => c Y /= ->.
Qed.

Lemma all_rows_nonempty (h : seq (arr F)) : h <> [::] -> nonempty_hist h -> (size (all_rows h) == 0%N) = false.
Proof.
case: h => // x h _ /= /andP[hx _]; rewrite /all_rows /= size_cat addn_eq0.
by rewrite eqn0Ngt hx.
Qed.

(* ---------------- C01 -------------------------------------------------- *)
(* Every successful history of non-empty batches on Mean: count and mean. *)
Theorem C01_mean_history (d : nat) (h : seq (arr F)) (st : mean F) :
  nonempty_hist h -> run_hist (@mean_update F) (mean_init F d) h = Some st ->
  me_n st = size (all_rows h) /\
  mean_call st = if h is [::] then PFloat NaN else as_read d (cavg (all_rows h)).
Proof.
move=> hh; rewrite mean_init_of => hr.
have gh := mean_ok_good hh hr; move: hr; rewrite mean_hist_gen // => -[<-]; split=> //.
case: h hh {gh} => [|x h] hh; first by [].
rewrite /mean_call /as_read /mean_of /= (all_rows_nonempty _ hh) //.
by case: eqP => // ->; rewrite nth_mkseq.
Qed.

(* The same for Covariance. *)
Theorem C01_covariance_mean_history (d : nat) (h : seq (arr F)) (st : cov F) :
  nonempty_hist h -> run_hist (@cov_update F) (cov_init F d) h = Some st ->
  co_n st = size (all_rows h) /\
  cov_mean st = if h is [::] then PFloat NaN else as_read d (cavg (all_rows h)).
Proof.
move=> hh; rewrite cov_init_of => hr.
have gh := cov_ok_good hh hr; move: hr; rewrite cov_hist_gen // => -[<-]; split=> //.
case: h hh {gh} => [|x h] hh; first by [].
rewrite /cov_mean /mean_call /as_read /cov_of /= (all_rows_nonempty _ hh) //.
by case: eqP => // ->; rewrite nth_mkseq.
Qed.

(* Such histories do succeed whenever the shapes fit. *)
Theorem C01_histories_succeed (d : nat) (h : seq (arr F)) :
  all (fun x => cols_of x == d) h -> nonempty_hist h ->
  (exists st, run_hist (@mean_update F) (mean_init F d) h = Some st) /\
  (exists st, run_hist (@cov_update F) (cov_init F d) h = Some st).
Proof.
move=> h1 h2.
have gh : all (good_batch d) h.
  by elim: h h1 h2 => //= x h IH /andP[a b] /andP[c e]; rewrite /good_batch a c IH.
by split; eexists; [exact: mean_hist|exact: cov_hist].
Qed.

(* ---------------- C02 -------------------------------------------------- *)
Theorem C02_covariance_history (d : nat) (h : seq (arr F)) (st : cov F) (ddof : int) :
  nonempty_hist h -> run_hist (@cov_update F) (cov_init F d) h = Some st ->
  ddof < (size (all_rows h))%:Z ->
  cov_call st ddof =
    Ok (as_read2 d (fun i j => scatter (all_rows h) i j / ((size (all_rows h))%:Z - ddof)%:~R)).
Proof.
move=> hh; rewrite cov_init_of => hr.
have gh := cov_ok_good hh hr; move: hr; rewrite cov_hist_gen // => -[<-] hd.
rewrite /cov_call /cov_of /= subr_le0 leNgt hd /= /as_read2.
case: eqP => [->|_]; first by [].
congr Ok; congr PMat; congr Mat.
by rewrite -map_comp; apply: eq_mkseq => i /=; rewrite -map_comp.
Qed.

(* ---------------- C03 -------------------------------------------------- *)
Theorem C03_mean_order_invariant (d : nat) (h1 h2 : seq (arr F)) (s1 s2 : mean F) :
  nonempty_hist h1 -> nonempty_hist h2 -> perm_eq (all_rows h1) (all_rows h2) ->
  run_hist (@mean_update F) (mean_init F d) h1 = Some s1 ->
  run_hist (@mean_update F) (mean_init F d) h2 = Some s2 ->
  me_n s1 = me_n s2 /\ mean_call s1 = mean_call s2.
Proof.
move=> n1 n2 p; rewrite mean_init_of => r1 r2.
have g1 := mean_ok_good n1 r1; have g2 := mean_ok_good n2 r2.
move: r1 r2; rewrite !mean_hist_gen // => -[<-] [<-].
suff -> : mean_of d (all_rows h1) = mean_of d (all_rows h2) by [].
rewrite /mean_of (perm_size p); congr MkMean; congr Vec.
by apply: eq_mkseq => i; apply: cavg_perm.
Qed.

Theorem C03_covariance_order_invariant (d : nat) (h1 h2 : seq (arr F)) (s1 s2 : cov F) :
  nonempty_hist h1 -> nonempty_hist h2 -> perm_eq (all_rows h1) (all_rows h2) ->
  run_hist (@cov_update F) (cov_init F d) h1 = Some s1 ->
  run_hist (@cov_update F) (cov_init F d) h2 = Some s2 ->
  co_n s1 = co_n s2 /\ cov_mean s1 = cov_mean s2 /\
  forall ddof, cov_call s1 ddof = cov_call s2 ddof.
Proof.
move=> n1 n2 p; rewrite cov_init_of => r1 r2.
have g1 := cov_ok_good n1 r1; have g2 := cov_ok_good n2 r2.
move: r1 r2; rewrite !cov_hist_gen // => -[<-] [<-].
suff -> : cov_of d (all_rows h1) = cov_of d (all_rows h2) by [].
rewrite /cov_of (perm_size p); congr MkCov.
  by congr Vec; apply: eq_mkseq => i; apply: cavg_perm.
congr Mat; apply: eq_mkseq => i; apply: eq_mkseq => j; exact: scatter_perm.
Qed.

(* ---------------- C04 -------------------------------------------------- *)
(* reported covariance entries *)
Definition entry (p : pyval F) (i j : nat) : F :=
  match p with
  | PMat (Mat C) => (nth [::] C i)`_j
  | PFloat (Fin x) => x
  | _ => 0
  end.

Theorem C04_covariance_sym_psd (d : nat) (h : seq (arr F)) (st : cov F) (ddof : int) (p : pyval F) :
  nonempty_hist h -> run_hist (@cov_update F) (cov_init F d) h = Some st ->
  ddof < (size (all_rows h))%:Z -> cov_call st ddof = Ok p ->
  (forall i j, (i < d)%N -> (j < d)%N -> entry p i j = entry p j i) /\
  (forall v : nat -> F, 0 <= \sum_(i < d) \sum_(j < d) v i * entry p i j * v j) /\
  (forall i, (i < d)%N -> 0 <= entry p i i).
Proof.
move=> hh hr hd; rewrite (C02_covariance_history hh hr hd) => -[<-].
set den := _%:~R; set X := all_rows h.
have den_ge0 : 0 <= den^-1 by rewrite invr_ge0 ler0z subr_ge0 ltW.
have eE i j : (i < d)%N -> (j < d)%N ->
    entry (as_read2 d (fun i j => scatter X i j / den)) i j = scatter X i j / den.
  rewrite /as_read2; case: eqP => [-> | _] hi hj.
    by move: hi hj; rewrite !ltnS !leqn0 => /eqP -> /eqP ->.
  by rewrite /= nth_mkseq // nth_mkseq.
have psd (v : nat -> F) : 0 <= \sum_(i < d) \sum_(j < d) v i * (scatter X i j / den) * v j.
  have -> : \sum_(i < d) \sum_(j < d) v i * (scatter X i j / den) * v j =
    den^-1 * \sum_(i < d) \sum_(j < d) v i * scatter X i j * v j.
    rewrite mulr_sumr; apply: eq_bigr => i _; rewrite mulr_sumr; apply: eq_bigr => j _.
    by move: (v i) (v j) (scatter _ _ _) (den^-1) => a b c e; ring.
  by apply: mulr_ge0 => //; apply: scatter_psd.
split; [|split].
- by move=> i j hi hj; rewrite !eE // scatter_sym.
- move=> v; move: (psd v); congr (0 <= _).
  by apply: eq_bigr => i _; apply: eq_bigr => j _; rewrite eE.
- move=> i hi; rewrite eE //; apply: mulr_ge0 => //.
  by rewrite /scatter; apply: sumr_ge0 => x _; rewrite -expr2 sqr_ge0.
Qed.

(* ---------------- C05 -------------------------------------------------- *)
Theorem C05_infinite_iff_too_few (d : nat) (h : seq (arr F)) (st : cov F) (ddof : int) :
  (0 < d)%N -> nonempty_hist h -> run_hist (@cov_update F) (cov_init F d) h = Some st ->
  (cov_call st ddof = Ok (PFloat PInf) <-> (size (all_rows h))%:Z <= ddof).
Proof.
move=> d0 hh hr; split.
  case: (leP (size (all_rows h))%:Z ddof) => // hd.
  by rewrite (C02_covariance_history hh hr hd) /as_read2; case: eqP.
have gh : all (good_batch d) h by move: hr; rewrite cov_init_of; exact: cov_ok_good.
move: hr; rewrite cov_hist // => -[<-] hd.
by rewrite /cov_call /= subr_le0 hd eqn0Ngt d0.
Qed.

Theorem C05_mean_nan_iff_empty (d : nat) (h : seq (arr F)) (st : mean F) :
  nonempty_hist h -> run_hist (@mean_update F) (mean_init F d) h = Some st ->
  (mean_call st = PFloat NaN <-> size (all_rows h) = 0%N).
Proof.
move=> hh hr; have [_ ->] := C01_mean_history hh hr.
case: h hh {hr} => [|x h] hh //; split=> [|e].
  by rewrite /as_read; case: eqP.
have hn : x :: h <> [::] by [].
by move: (all_rows_nonempty hn hh); rewrite e.
Qed.

(* ---------------- C06 -------------------------------------------------- *)
Theorem C06_bad_shape_rejected (x : arr F) :
  (forall st : mean F, cols_of x <> me_dim st -> mean_update st x = (st, Some AssertionError)) /\
  (forall st : cov F, cols_of x <> co_dim st -> cov_update st x = (st, Some AssertionError)).
Proof.
by split=> st /eqP hc; rewrite /mean_update /cov_update; move: hc; rewrite /cols_of;
   case: (as_rows x) => c Y /= ->.
Qed.

Theorem C06_empty_batch_on_fresh (d : nat) (x : arr F) :
  cols_of x = d -> rows_of x = [::] ->
  mean_update (mean_init F d) x = (mean_init F d, Some ZeroDivisionError) /\
  cov_update (cov_init F d) x = (cov_init F d, Some ZeroDivisionError).
Proof.
rewrite /cols_of /rows_of /mean_update /cov_update; case: (as_rows x) => c Y /= -> ->.
by rewrite eqxx.
Qed.

(* mean() shows NaN *)
Definition reads_nan (p : pyval F) : bool :=
  match p with PFloat NaN | PArr VNaN | PMat MNaN => true | _ => false end.

Lemma mean_nan_stays d n h st :
  run_hist (@mean_update F) (MkMean d n VNaN) h = Some st -> me_mu st = VNaN.
Proof.
elim: h n => [|x h IH] n /=; first by case=> <-.
rewrite /mean_update; case: (as_rows x) => c Y /=.
by case: ifP => // _; case: ifP => // _ /IH.
Qed.

Lemma cov_nan_stays d n h st :
  run_hist (@cov_update F) (MkCov d n VNaN MNaN) h = Some st ->
  [/\ co_mu st = VNaN, co_S st = MNaN, co_dim st = d & (n <= co_n st)%N].
Proof.
elim: h n => [|x h IH] n /=; first by case=> <-.
rewrite /cov_update; case: (as_rows x) => c Y /=.
case: ifP => // _; case: ifP => // _ /IH [-> -> ->] hn; split=> //.
by rewrite (leq_trans _ hn) // leq_addr.
Qed.

(* One empty batch on a non-fresh object: no exception, and every later
   successful history reads NaN. *)
Theorem C06_empty_batch_poisons_mean (st : mean F) (x : arr F) (h : seq (arr F)) (st' : mean F) :
  (0 < me_n st)%N -> cols_of x = me_dim st -> rows_of x = [::] ->
  run_hist (@mean_update F) st (x :: h) = Some st' -> reads_nan (mean_call st').
Proof.
move=> n0 hc hx /=; rewrite /mean_update; move: hc hx; rewrite /cols_of /rows_of.
case: (as_rows x) => c Y /= -> ->; rewrite eqxx /= addn0 eqn0Ngt n0 /=.
have -> : mu_step (me_dim st) (me_n st) (me_mu st) [::] = VNaN by rewrite /mu_step; case: (me_mu st).
move/mean_nan_stays => e; rewrite /mean_call e; by case: ifP => // _; case: ifP.
Qed.

Theorem C06_empty_batch_poisons_covariance (st : cov F) (x : arr F) (h : seq (arr F)) (st' : cov F) (ddof : int) :
  (0 < co_n st)%N -> (0 < co_dim st)%N -> cols_of x = co_dim st -> rows_of x = [::] ->
  run_hist (@cov_update F) st (x :: h) = Some st' ->
  reads_nan (cov_mean st') /\
  (ddof < (co_n st')%:Z -> exists2 p, cov_call st' ddof = Ok p & reads_nan p).
Proof.
move=> n0 d0 hc hx /=; rewrite /cov_update; move: hc hx; rewrite /cols_of /rows_of.
case: (as_rows x) => c Y /= -> ->; rewrite eqxx /= addn0 eqn0Ngt n0 /=.
have -> : mu_step (co_dim st) (co_n st) (co_mu st) [::] = VNaN by rewrite /mu_step; case: (co_mu st).
have -> : S_step (co_dim st) (co_n st) (co_mu st) (co_S st) [::] = MNaN
  by rewrite /S_step; case: (co_mu st); case: (co_S st).
move/cov_nan_stays => [e1 e2 e3 e4]; split.
  by rewrite /cov_mean /mean_call /= e1; case: ifP => // _; case: ifP.
rewrite -subr_gt0 => hd; rewrite /cov_call leNgt hd /= e2.
by case: ifP => _; eexists.
Qed.

(* hence an empty batch is not a no-op *)
Theorem C06_empty_batch_noop_refuted :
  ~ (forall (st : mean F) (x : arr F) (st' : mean F),
       rows_of x = [::] -> mean_update st x = (st', None) -> mean_call st' = mean_call st).
Proof.
pose st := MkMean 1 1 (Vec [:: (1 : F)]).
move/(_ st (Arr1 [::]) (MkMean 1 1 VNaN) erefl).
rewrite /mean_update /= => /(_ erefl).
by rewrite /mean_call /st /=.
Qed.

(* ---------------- C07 -------------------------------------------------- *)
Variables (tppf : F -> nat -> F) (normal_q : F -> F).
Let ci := @confidence_interval F tppf normal_q.

(* quantile each sampling distribution asks for *)
Definition quantile (sdist : string) (conf : F) (n : nat) : option F :=
  if (sdist =? "t")%string then Some (tppf ((1 + conf) / 2%:R) (n - 1))
  else if (sdist =? "normal")%string then Some (normal_q conf) else None.

Theorem C07_interval_value (a : seq F) (conf : F) (sdist : string) (q : F) :
  0 <= conf <= 1 -> quantile sdist conf (size a) = Some q ->
  ci a conf sdist = Ok (avg a - q * std_err a, avg a + q * std_err a).
Proof.
move=> hc; rewrite /quantile /ci /confidence_interval hc /=.
by case: ifP => _; [case=> <- | case: ifP => // _ [<-]].
Qed.

Lemma avg_affine (a : seq F) (k c : F) : (0 < size a)%N ->
  avg [seq k * x + c | x <- a] = k * avg a + c.
Proof.
move=> ha; have hn := @size_neq0 F _ ha.
apply: (mulfI hn); rewrite /avg size_map big_map.
rewrite mulrC divfK // mulrDr mulrCA (mulrC _ (_ / _)) divfK //.
by rewrite big_split /= -mulr_sumr big_const_seq count_predT iter_addr addr0 mulr_natl.
Qed.

Lemma sample_var_affine (a : seq F) (k c : F) : (0 < size a)%N ->
  sample_var [seq k * x + c | x <- a] = k ^+ 2 * sample_var a.
Proof.
move=> ha; rewrite /sample_var avg_affine // size_map big_map mulrA; congr (_ / _).
rewrite mulr_sumr; apply: eq_bigr => x _.
by move: (avg a) => m; ring.
Qed.

(* centred and ordered *)
Theorem C07_centered_ordered (a : seq F) (conf : F) (sdist : string) (lo hi : F) :
  ci a conf sdist = Ok (lo, hi) ->
  lo + hi = 2%:R * avg a /\
  (forall q, quantile sdist conf (size a) = Some q -> 0 <= q -> lo <= avg a <= hi).
Proof.
rewrite /ci /confidence_interval; case: ifP => // hc; rewrite -/(avg a) -/(std_err a).
have key q : lo = avg a - q * std_err a -> hi = avg a + q * std_err a ->
   lo + hi = 2%:R * avg a /\ (0 <= q -> lo <= avg a <= hi).
  move=> -> ->; split; first by move: (avg a) (std_err a) => m s; ring.
  move=> q0; have s0 : 0 <= q * std_err a by rewrite mulr_ge0 // divr_ge0 ?sqrtr_ge0.
  by rewrite ger_addl oppr_le0 s0 ler_addl s0.
rewrite /quantile; case: ifP => _.
  by case=> e1 e2; have [k1 k2] := key _ (esym e1) (esym e2); split=> // q [<-] /k2.
case: ifP => // _ [e1 e2]; have [k1 k2] := key _ (esym e1) (esym e2); split=> // q [<-] /k2 //.
Qed.

(* shifting and positive scaling of the data *)
Theorem C07_equivariant (a : seq F) (conf : F) (sdist : string) (k c lo hi : F) :
  (2 <= size a)%N -> 0 < k -> ci a conf sdist = Ok (lo, hi) ->
  ci [seq k * x + c | x <- a] conf sdist = Ok (k * lo + c, k * hi + c).
Proof.
move=> ha k0; have a0 : (0 < size a)%N by apply: leq_trans ha.
rewrite /ci /confidence_interval; case: ifP => // hc.
have mE (s : seq F) : np_mean s = avg s by [].
rewrite !mE !avg_affine // !size_map.
have -> : np_std1 [seq k * x + c | x <- a] = k * np_std1 a.
  have sE (s : seq F) : np_std1 s = Num.sqrt (sample_var s) by [].
  rewrite !sE sample_var_affine //.
  by rewrite sqrtrM ?sqr_ge0 // sqrtr_sqr ger0_norm // ltW.
have e q s m : (k * m + c - q * (k * s), k * m + c + q * (k * s)) =
             (k * (m - q * s) + c, k * (m + q * s) + c).
  by congr pair; ring.
case: ifP => _; first by case=> <- <-; rewrite -mulrA e.
by case: ifP => // _ [<- <-]; rewrite -mulrA e.
Qed.

Theorem C07_rejections (a : seq F) (conf : F) (sdist : string) :
  (~~ (0 <= conf <= 1) -> ci a conf sdist = Err AssertionError) /\
  (0 <= conf <= 1 -> sdist <> "t"%string -> sdist <> "normal"%string ->
     ci a conf sdist = Err ValueError).
Proof.
rewrite /ci /confidence_interval; split=> [-> //|hc h1 h2]; rewrite hc /=.
by case: String.eqb_spec => // _; case: String.eqb_spec.
Qed.

End Props.

(* ---------------- the hypotheses can be met ------------------------------ *)
Section Examples.
Variable F : rcfType.
(* two batches, three rows in dimension 2, and a scalar history in dimension 1 *)
Let h2 : seq (arr F) := [:: Arr2 2 [:: [:: 1; 2%:R]; [:: 3%:R; 4%:R]]; Arr2 2 [:: [:: 5%:R; 0]]].
Let h1 : seq (arr F) := [:: Arr0 1; Arr1 [:: 2%:R; 6%:R]].

Example ex_hist_hyps :
  nonempty_hist h2 /\ (exists st, run_hist (@cov_update F) (cov_init F 2) h2 = Some st) /\ (exists st, run_hist (@mean_update F) (mean_init F 2) h2 = Some st) /\ nonempty_hist h1 /\ (exists st, run_hist (@mean_update F) (mean_init F 1) h1 = Some st).
Proof. by do !split; try (by eexists); apply: C01_histories_succeed. Qed.

(* and the conclusions are the expected numbers *)
Example ex_mean1 : exists2 st, run_hist (@mean_update F) (mean_init F 1) h1 = Some st &
  mean_call st = PFloat (Fin 3%:R).
Proof.
have [st hs] := (C01_histories_succeed (d := 1) (h := h1) erefl erefl).1.
exists st => //; have [_ ->] := C01_mean_history (h := h1) erefl hs.
rewrite /as_read /=; congr PFloat; congr Fin.
rewrite /cavg /avg /all_rows /rows_of /= !big_cons big_nil /=.
have h3 : (3%:R : F) != 0 by rewrite pnatr_eq0.
by apply: (mulIf h3); rewrite divfK // addr0 -[1]/(1%:R) -!natrD -natrM.
Qed.

Example ex_poison : exists st', run_hist (@mean_update F) (mean_of 1 [:: [:: 1]]) [:: Arr1 [::]; Arr0 2%:R] = Some st'.
Proof. by eexists. Qed.
End Examples.

Print Assumptions C01_mean_history.
Print Assumptions C01_covariance_mean_history.
Print Assumptions C01_histories_succeed.
Print Assumptions C02_covariance_history.
Print Assumptions C03_mean_order_invariant.
Print Assumptions C03_covariance_order_invariant.
Print Assumptions C04_covariance_sym_psd.
Print Assumptions C05_infinite_iff_too_few.
Print Assumptions C05_mean_nan_iff_empty.
Print Assumptions C06_bad_shape_rejected.
Print Assumptions C06_empty_batch_on_fresh.
Print Assumptions C06_empty_batch_poisons_mean.
Print Assumptions C06_empty_batch_poisons_covariance.
Print Assumptions C06_empty_batch_noop_refuted.
Print Assumptions C07_interval_value.
Print Assumptions C07_centered_ordered.
Print Assumptions C07_equivariant.
Print Assumptions C07_rejections.
