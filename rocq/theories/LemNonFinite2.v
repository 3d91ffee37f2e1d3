(* On finite samples ModelNonFinite computes what ModelStats and ModelEstimators compute. *)
From mathcomp Require Import all_ssreflect all_algebra zify ring.
From Verif Require Import Base Spec ModelStats ModelEstimators LemEstimators ModelTrace ModelNonFinite LemNonFinite.
Set Implicit Arguments.
Unset Strict Implicit.
Unset Printing Implicit Defensive.
Import Order.TTheory GRing.Theory Num.Theory.
Local Open Scope ring_scope.

Section Agree.
Variable F : rcfType.
Variables (tppf : F -> nat -> F) (zq : F -> F).
Local Notation xn := (xnum F).
Local Notation fins := (map (@Fin F)).
Local Notation rfin := (map (map (@Fin F))).

(* an array of finite doubles *)
Definition arr_fin (x : arr F) : arr xn :=
  match x with
  | Arr0 a => Arr0 (Fin a)
  | Arr1 s => Arr1 (fins s)
  | Arr2 c r => Arr2 c (rfin r)
  end.

Definition lift_S (d : nat) (M : nmat F) : seq (seq xn) :=
  match M with Mat M => rfin M | MNaN => nseq d (nseq d NaN) end.
Definition lift_store (s : store F) : xacc F :=
  match s with
  | SMean m => XAcc (me_dim m) (me_n m) (nvec_x (me_dim m) (me_mu m)) None
  | SCov c => XAcc (co_dim c) (co_n c) (nvec_x (co_dim c) (co_mu c)) (Some (lift_S (co_dim c) (co_S c)))
  end.
Definition lift_est (e : mest F) : xest F :=
  XEst (lift_store (ms_store e)) (ms_n e) (ms_delta e) (omap rfin (ms_values e)).

Lemma xat_fins (s : seq F) i : xat (fins s) i = Fin s`_i.
Proof.
rewrite /xat; case: (ltnP i (size s)) => hi; first by rewrite (nth_map 0).
by rewrite !nth_default ?size_map.
Qed.

Lemma nth_rfin (M : seq (seq F)) i : nth [::] (rfin M) i = fins (nth [::] M i).
Proof.
case: (ltnP i (size M)) => hi; first by rewrite (nth_map [::]).
by rewrite !nth_default ?size_map.
Qed.

Lemma as_rows_fin x : as_rows (arr_fin x) = ((as_rows x).1, rfin (as_rows x).2).
Proof. by case: x => //= s; rewrite -!map_comp. Qed.

Lemma xbatch_fins (X : seq (seq F)) i : (0 < size X)%N -> xbatch_mean (rfin X) i = Fin (batch_mean X i).
Proof.
move=> hX; rewrite /xbatch_mean size_map -map_comp.
rewrite (@eq_map _ _ _ (fun x => Fin x`_i)) => [|x]; last exact: xat_fins.
rewrite (map_comp (@Fin F) (fun x : seq F => x`_i)) xsum_fin big_map /= pnatr_eq0.
by rewrite eqn0Ngt hX.
Qed.

Lemma xdelta_fins (mu : seq F) X i : (0 < size X)%N ->
  xdelta_mean (fins mu) (rfin X) i = Fin (batch_mean X i - mu`_i).
Proof. by move=> hX; rewrite /xdelta_mean xbatch_fins // xat_fins. Qed.

Lemma xmu_step_fin d n (mu : nvec F) X :
  xmu_step d n (nvec_x d mu) (rfin X) = nvec_x d (mu_step d n mu X).
Proof.
case: mu => [mu|] /=.
  case: X => [|x X]; last first.
    rewrite /nvec_x /xmu_step -map_comp; apply: eq_mkseq => i.
    by rewrite xdelta_fins // xat_fins /= size_map.
  apply: (@eq_from_nth _ (Fin 0)); first by rewrite size_mkseq size_nseq.
  by move=> i; rewrite size_mkseq => hi; rewrite [LHS]xmu_step_nil // nth_nseq hi.
apply: (@eq_from_nth _ (Fin 0)); first by rewrite size_mkseq size_nseq.
move=> i; rewrite size_mkseq => hi; rewrite nth_nseq hi nth_mkseq // /xdelta_mean /xat nth_nseq hi.
by rewrite /xsub xnan_add xnan_mul.
Qed.

Lemma xS_step_fin d n (mu : nvec F) (M : nmat F) X :
  xS_step d n (nvec_x d mu) (lift_S d M) (rfin X) = lift_S d (S_step d n mu M X).
Proof.
have fix_nan Y : (forall i j, (i < d)%N -> (j < d)%N -> xat (nth [::] Y i) j = NaN) ->
    size Y = d -> (forall i, (i < d)%N -> size (nth [::] Y i) = d) -> Y = nseq d (nseq d NaN).
  move=> h hs hr; apply: (@eq_from_nth _ [::]); rewrite ?size_nseq // hs => i hi.
  rewrite nth_nseq hi; apply: (@eq_from_nth _ (Fin 0)); rewrite ?size_nseq ?hr // => j hj.
  by rewrite nth_nseq hj -(h i j).
have shape S0 mu0 Y : size (xS_step d n mu0 S0 Y) = d /\
    (forall i, (i < d)%N -> size (nth [::] (xS_step d n mu0 S0 Y) i) = d).
  by rewrite size_mkseq; split=> // i hi; rewrite nth_mkseq // size_mkseq.
have [s1 s2] := shape _ (lift_S d M) (nvec_x d mu) (rfin X).
case: mu M s1 s2 => [mu|] [M|] s1 s2 /=; last first.
- apply: fix_nan => // i j hi hj; rewrite xS_stepE //= !nth_nseq hi /xat nth_nseq hj.
  by rewrite xnan_addl.
- apply: fix_nan => // i j hi hj; rewrite xS_stepE // /xdelta_mean /xat nth_nseq hi.
  by rewrite /xsub xnan_add xnan_mull xnan_mul !xnan_add.
- by apply: fix_nan => // i j hi hj; rewrite xS_stepE //= nth_nseq hi /xat nth_nseq hj xnan_addl.
case: X s1 s2 => [|x X] s1 s2.
  apply: fix_nan => // i j hi hj; rewrite xS_stepE // /xdelta_mean !xbatch_nil.
  by rewrite /xsub xnan_addl xnan_mull xnan_mul !xnan_add.
have : (0 < size (x :: X))%N by [].
move: (x :: X) => Y hY {s1 s2 x X}; rewrite /lift_S /xS_step /mkseq -map_comp; apply: eq_map => i.
rewrite /comp -map_comp; apply: eq_map => j; rewrite /comp nth_rfin xat_fins !xdelta_fins // size_map.
rewrite !xbatch_fins // -map_comp.
rewrite (@eq_map _ _ _ (fun y => Fin ((y`_i - batch_mean Y i) * (y`_j - batch_mean Y j)))) => [|y]; last first.
  by rewrite /comp !xat_fins.
by rewrite (map_comp (@Fin F) (fun y : seq F => (y`_i - batch_mean Y i) * (y`_j - batch_mean Y j))) xsum_fin big_map.
Qed.

Lemma store_update_fin s x :
  xacc_update (lift_store s) (arr_fin x) = let: (s', o) := store_update s x in (lift_store s', o).
Proof.
rewrite /xacc_update as_rows_fin /store_update; case: s => [m|c] /=.
  rewrite /mean_update; case: (as_rows x) => cols X /=; rewrite size_map.
  by case: eqP => //= _; case: eqP => //= _; rewrite -xmu_step_fin.
rewrite /cov_update; case: (as_rows x) => cols X /=; rewrite size_map.
by case: eqP => //= _; case: eqP => //= _; rewrite -xmu_step_fin -xS_step_fin.
Qed.

Lemma store_mu_fin s : xa_mu (lift_store s) = nvec_x (store_dim s) (store_mu s).
Proof. by case: s. Qed.
Lemma store_dim_fin s : xa_dim (lift_store s) = store_dim s.
Proof. by case: s. Qed.

(* shapes, and both sample counters agree *)
Definition shaped (e : mest F) : Prop :=
  (if store_mu (ms_store e) is Vec mu then size mu = store_dim (ms_store e) else True) /\
  (xa_n (lift_store (ms_store e)) = ms_n e).

Lemma store_update_dim s x s' : store_update s x = (s', None) ->
  [/\ store_dim s' = store_dim s, xa_n (lift_store s') = (xa_n (lift_store s) + size (rows_of x))%N &
      if store_mu s' is Vec mu then size mu = store_dim s' else True].
Proof.
rewrite /rows_of; case: s => [m|c] /=.
  rewrite /mean_update; case: (as_rows x) => cols X /=.
  case: eqP => // _; case: eqP => // _ [<-]; split=> //=; case: (me_mu m) => //= mu; case: X => // y X; by rewrite size_mkseq.
rewrite /cov_update; case: (as_rows x) => cols X /=.
case: eqP => // _; case: eqP => // _ [<-]; split=> //=; case: (co_mu c) => //= mu; case: X => // y X; by rewrite size_mkseq.
Qed.

Lemma nvec_sub_fin d (a b : nvec F) : mkseq (fun i => xsub (xat (nvec_x d a) i) (xat (nvec_x d b) i)) d = nvec_sub d a b.
Proof.
case: a b => [a|] [b|] /=.
- by apply: eq_mkseq => i; rewrite !xat_fins.
- apply: (@eq_from_nth _ (Fin 0)); rewrite size_mkseq ?size_nseq // => i hi.
  by rewrite nth_mkseq // nth_nseq hi /xat nth_nseq hi /xsub xnan_add.
- apply: (@eq_from_nth _ (Fin 0)); rewrite size_mkseq ?size_nseq // => i hi.
  by rewrite nth_mkseq // nth_nseq hi /xat nth_nseq hi /xsub xnan_addl.
- apply: (@eq_from_nth _ (Fin 0)); rewrite size_mkseq ?size_nseq // => i hi.
  by rewrite nth_mkseq // nth_nseq hi /xat nth_nseq hi.
Qed.

Lemma est_update_fin e x :
  xest_update (lift_est e) (arr_fin x) = let: (e', o) := mest_update e x in (lift_est e', o).
Proof.
rewrite /xest_update as_rows_fin /mest_update; case: (as_rows x) => cols X /=.
have := store_update_fin (ms_store e) (Arr2 cols X); rewrite /arr_fin => ->.
case E: (store_update _ _) => [s' [ex|]] //=; have [hd _ _] := store_update_dim E.
rewrite /lift_est /= size_map; congr (XEst _ _ _ _, _).
  by rewrite store_dim_fin !store_mu_fin -hd nvec_sub_fin.
by case: (ms_values e) => //= vs; rewrite map_cat.
Qed.

Lemma est_init_fin d c r : xest_init F d c r = lift_est (mest_init F d c r).
Proof. by rewrite /lift_est /xest_init; case: c; case: r => //=; rewrite /xacc_init /= !map_nseq. Qed.

Lemma shaped_init d c r : shaped (mest_init F d c r).
Proof. by rewrite /shaped; case: c => /=; rewrite size_nseq. Qed.

Lemma shaped_update e x e' : shaped e -> mest_update e x = (e', None) -> shaped e'.
Proof.
rewrite /mest_update /shaped => -[_ hn]; case: (as_rows x) => cols X.
case E: (store_update _ _) => [s' [ex|]] //= [<-] /=; have [hd hs hm] := store_update_dim E.
by split=> //; rewrite hs hn.
Qed.

Lemma estimate_fin e : shaped e ->
  xest_estimate (lift_est e) = pyval_x (store_dim (ms_store e)) (mest_estimate e).
Proof.
rewrite /shaped /xest_estimate /mest_estimate /lift_est /=; case: (ms_store e) => [m|c] /= [hm _];
  rewrite /cov_mean /mean_call /=; case: eqP => // _; case: eqP => //= hd;
  rewrite hd in hm *; [case: (me_mu m) hm | case: (co_mu c) hm] => //= mu; by case: mu => // a [].
Qed.

(* ---- the criteria ---------------------------------------------------------------------- *)
Fixpoint as_crit (c : bcrit F) : crit F :=
  match c with
  | BCount n => CCount F n
  | BTol r a o => CTol r a o
  | BConf q a r => CConf q a r
  | BKnee s => CKnee s
  | BOr a b => COr (as_crit a) (as_crit b)
  | BAnd a b => CAnd (as_crit a) (as_crit b)
  | BNot a => CNot (as_crit a)
  end.

Lemma xvar_fin (c : cov F) : co_dim c = 1%N -> (2 < co_n c)%N ->
  cov_call c 1 = Ok (PFloat (xvar (lift_store (SCov c)) (lift_S (co_dim c) (co_S c)))).
Proof.
move=> hd hn; rewrite /cov_call /xvar /= hd /=.
have -> : ((co_n c)%:Z - 1 <= 0) = false by apply/negbTE; lia.
have -> : (co_n c <= 1)%N = false by lia.
have hne : (co_n c)%:R - 1 != 0 :> F by rewrite subr_eq0 (eqr_nat F (co_n c) 1); lia.
have hz : ((co_n c)%:Z - 1)%:~R = (co_n c)%:R - 1 :> F by rewrite rmorphB.
rewrite -[match nth _ _ _ with | [::] => _ | _ => _ end]/(xat (nth [::] (lift_S 1 (co_S c)) 0) 0).
case: (co_S c) => [M|] //; rewrite /lift_S nth_rfin xat_fins /= (negbTE hne) hz; congr (Ok (PFloat (Fin _))).
by case: M => [|[|x r] M] //=; rewrite ?mul0r.
Qed.

Lemma foldr_fin (f : xn -> xn -> xn) (g : F -> F -> F) (a : F) s :
  (forall x y, f (Fin x) (Fin y) = Fin (g x y)) -> foldr f (Fin a) (fins s) = Fin (foldr g a s).
Proof. by move=> h; elim: s => //= x s ->. Qed.

Lemma xmin_fin (x y : F) : xmin (Fin x) (Fin y) = Fin (Num.min x y).
Proof. by rewrite /xmin /= minEle; case: ltgtP => // ->. Qed.

Lemma knee_y_fin (mv : seq F) : xknee_y (fins mv) = fins (knee_y mv).
Proof.
rewrite /xknee_y /knee_y /np_cumsum /np_diff /knee_scaled.
set sc := mkseq (fun i => mv`_i / _) _.
have -> : mkseq (fun i => xdiv (xat (fins mv) i) (Fin i.+1%:R)) (size (fins mv)) = fins sc.
  rewrite /sc /mkseq -map_comp size_map; apply: eq_map => i.
  by rewrite /comp xat_fins /= pnatr_eq0.
clearbody sc; set d := [seq `|x| | x <- _].
have -> : mkseq (fun i => xabs (xsub (xat (fins sc) i.+1) (xat (fins sc) i))) (size (fins sc)).-1 = fins d.
  by rewrite /d /mkseq -!map_comp size_map; apply: eq_map => i; rewrite /comp !xat_fins.
clearbody d; rewrite /mkseq -map_comp size_map; apply/eq_in_map => i; rewrite mem_iota add0n => /andP[_ hi].
rewrite /comp -map_take xsum_fin; congr Fin.
rewrite (big_nth 0) size_takel // big_mkord; apply: eq_bigr => j _.
by rewrite nth_take.
Qed.

Lemma knee_curve_fin (y : seq F) : xknee_curve (fins y) = knee_curve y.
Proof.
rewrite /xknee_curve /knee_curve size_map; apply: eq_mkseq => i.
rewrite /xfold !xat_fins (foldr_fin _ _ xmin_fin) (@foldr_fin _ _ _ _ (@xmax_fin F)).
by [].
Qed.

Lemma flatten_fin (vs : seq (seq F)) : flatten (rfin vs) = fins (flatten vs).
Proof. by elim: vs => //= v vs ->; rewrite map_cat. Qed.

Lemma knee_call_fin sens e : xknee_call sens (lift_est e) = knee_call sens (mest_view e).
Proof.
rewrite /xknee_call /knee_call /=; case: (ms_values e) => //= vs; rewrite size_map.
case: ifP => // _; rewrite flatten_fin knee_y_fin.
by case E: (knee_y (flatten vs)) => [//|y ys]; rewrite knee_curve_fin size_map.
Qed.

Lemma crit_fin c e : shaped e -> xcrit_call tppf zq c (lift_est e) = crit_call tppf zq (as_crit c) (mest_view e).
Proof.
move=> hs; elim: c => //=.
- by move=> r a o; rewrite /xtol_call /tol_call /= estimate_fin.
- move=> q a r; rewrite /xconf_call /conf_call /conf_error /=; case: ifP => //= h3.
  have := estimate_fin hs; move: hs; rewrite /shaped /lift_est /mest_estimate /=.
  case: (ms_store e) => [m|c] //= [_ hn] ->; case: eqP => hd.
    by rewrite xvar_fin //= hn; lia.
  rewrite /cov_call; have -> : ((co_n c)%:Z - 1 <= 0) = false by apply/negbTE; move: h3; rewrite hn; lia.
  by move/eqP: hd => /negbTE ->.
- by move=> s; exact: knee_call_fin.
- by move=> a -> b ->.
- by move=> a -> b ->.
- by move=> a ->.
Qed.
End Agree.
