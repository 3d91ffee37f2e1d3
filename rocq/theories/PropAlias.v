(* Property C09: are returned values snapshots? *)
From mathcomp Require Import all_ssreflect all_algebra.
From Verif Require Import Base Spec ModelStats LemStats PropStats ModelEstimators LemEstimators ModelAlias.
Set Implicit Arguments.
Unset Strict Implicit.
Unset Printing Implicit Defensive.
Import Order.TTheory GRing.Theory Num.Theory.
Local Open Scope ring_scope.

Section Props.
Variable F : rcfType.
Implicit Types (st : hstate F) (p : seq (hcmd F)).

Definition reads_only_floats st : bool :=
  all (fun v => if v is HFloat _ then true else false) (st_results st).

Lemma step_dim st c : he_dim (st_est (h_step st c)) = he_dim (st_est st)
                   /\ he_mu (st_est (h_step st c)) = he_mu (st_est st).
Proof.
case: c => [a||a x|k v] //=.
  by rewrite /h_update; case: (store_update _ _) => s [].
by case: (nth _ _ _).
Qed.

Lemma run_dim st p : he_dim (st_est (h_run st p)) = he_dim (st_est st)
                  /\ he_mu (st_est (h_run st p)) = he_mu (st_est st).
Proof.
elim: p st => [//|c p IH] st /=; have [-> ->] := IH (h_step st c); exact: step_dim.
Qed.

Lemma step_results st c : exists l, st_results (h_step st c) = st_results st ++ l.
Proof.
case: c => [a||a x|k v] /=.
- by exists [::]; rewrite /h_update cats0; case: (store_update _ _) => s [].
- by eexists; rewrite -cats1.
- by exists [::]; rewrite cats0.
- by exists [::]; rewrite cats0; case: (nth _ _ _).
Qed.

Lemma run_results st p : exists l, st_results (h_run st p) = st_results st ++ l.
Proof.
elim: p st => [|c p IH] st /=; first by exists [::]; rewrite cats0.
have [l1 e1] := IH (h_step st c); have [l2 e2] := step_results st c.
by exists (l2 ++ l1); rewrite e1 e2 catA.
Qed.

Lemma nth_run_results st p k : (k < size (st_results st))%N ->
  nth (HFloat NaN) (st_results (h_run st p)) k = nth (HFloat NaN) (st_results st) k.
Proof. by have [l ->] := run_results st p => h; rewrite nth_cat h. Qed.

(* what each read returned, in terms of the object *)
Definition result_ok st (v : hval F) : bool :=
  match v with HFloat _ => true | HRef q => (he_dim (st_est st) != 1%N) && (q == he_mu (st_est st)) end.

Lemma result_ok_run st p : all (result_ok st) (st_results st) ->
  all (result_ok st) (st_results (h_run st p)).
Proof.
elim: p st => [//|c p IH] st h /=.
have [e1 e2] := step_dim st c.
have E : result_ok (h_step st c) =1 result_ok st by move=> [x|q] //=; rewrite e1 e2.
rewrite -(eq_all E); apply: IH; rewrite (eq_all E).
case: c {e1 e2 E} => [a||a x|k v] //=.
- by rewrite /h_update; case: (store_update _ _) => s [].
- rewrite all_rcons h andbT; case: ifP => // _; case: ifP => // d1.
  by rewrite /result_ok d1 eqxx.
- by case: (nth _ _ _).
Qed.

(* dim = 1: every value ever read is a float, so whatever the client or later
   updates do, looking at it again gives the same number. *)
Theorem C09_scalar_estimate_is_snapshot caller c r p1 p2 k :
  let st1 := h_run (h_new caller 1 c r) p1 in
  let st2 := h_run st1 p2 in
  (k < size (st_results st1))%N ->
  deref st2 (nth (HFloat NaN) (st_results st2) k) = deref st1 (nth (HFloat NaN) (st_results st1) k).
Proof.
move=> st1 st2 hk; rewrite nth_run_results //.
have := result_ok_run (st := h_new caller 1 c r) p1 (erefl true).
move=> /all_nthP - /(_ (HFloat NaN) k hk); case: (nth _ _ _) => // q.
Qed.

(* dim <> 1: every array ever returned is the accumulator, so after any further
   commands it shows the estimator's current mean. *)
Theorem C09_vector_estimate_is_live caller d c r p1 p2 k :
  d != 1%N ->
  let st1 := h_run (h_new caller d c r) p1 in
  let st2 := h_run st1 p2 in
  (k < size (st_results st1))%N ->
  nth (HFloat NaN) (st_results st1) k <> HFloat NaN ->
  he_n (st_est st2) <> 0%N ->
  deref st2 (nth (HFloat NaN) (st_results st2) k) = h_estimate st2.
Proof.
move=> d1 st1 st2 hk ne n0; rewrite nth_run_results //.
have dE : he_dim (st_est st2) = d.
  by rewrite (run_dim st1 p2).1 (run_dim (h_new caller d c r) p1).1.
have := result_ok_run (st := h_new caller d c r) p1 (erefl true).
have fl : forall p st, he_dim (st_est st) = d ->
   all (fun v => match v with HFloat x => if x is NaN then true else false | _ => true end) (st_results st) ->
   all (fun v => match v with HFloat x => if x is NaN then true else false | _ => true end) (st_results (h_run st p)).
  elim=> [//|cm p IH] st hd hs /=; apply: IH; first by rewrite (step_dim st cm).1.
  case: cm => [a||a x|j v] //=.
  - by rewrite /h_update; case: (store_update _ _) => s [].
  - by rewrite all_rcons hs andbT; case: ifP => // _; rewrite hd (negPf d1).
  - by case: (nth _ _ _).
have /all_nthP - /(_ (HFloat NaN) k hk) fk := fl p1 (h_new caller d c r) erefl (erefl true).
move=> /all_nthP - /(_ (HFloat NaN) k hk); move: fk ne; case: (nth _ _ _) => [x|q]; first by case: x.
move=> _ _ /= /andP[_ /eqP ->].
rewrite /h_estimate /load /deref.
have -> : he_mu (st_est st2) = 0%N by rewrite (run_dim st1 p2).2 (run_dim _ p1).2.
move/eqP/negPf: n0 => n0.
by case: (he_S _) => [M|]; rewrite /cov_mean /mean_call /= n0 dE (negPf d1).
Qed.

(* and writing into it is writing into the estimator; with dim = 1 there is nothing to write into *)
Theorem C09_writing_a_result caller d c r p k v :
  let st := h_run (h_new caller d c r) p in
  (k < size (st_results st))%N ->
  if d == 1%N then h_step st (HWriteResult k v) = st
  else nth (HFloat NaN) (st_results st) k <> HFloat NaN -> he_n (st_est st) <> 0%N ->
       h_estimate (h_step st (HWriteResult k v)) = PArr v.
Proof.
move=> st hk; case: eqP => [d1|/eqP d1].
  have := result_ok_run (st := h_new caller d c r) p (erefl true).
  move=> /all_nthP - /(_ (HFloat NaN) k hk); rewrite -/st /= /h_step; case: (nth _ _ _) => // q.
  by rewrite /result_ok /= d1.
move=> ne n0; have := @C09_vector_estimate_is_live caller d c r p [:: HWriteResult k v] k d1 hk ne.
rewrite -/st; have E : exists q, nth (HFloat NaN) (st_results st) k = HRef F q.
  case E: (nth _ _ _) => [x|q]; last by exists q.
  have := @C09_vector_estimate_is_live caller d c r p [::] k d1 hk ne n0; rewrite /= -/st E /= /h_estimate /load.
  have dE : he_dim (st_est st) = d by rewrite (run_dim _ p).1.
  move/eqP/negPf: n0 => n0; by case: (he_S _) => [M|]; rewrite /cov_mean /mean_call /= n0 dE (negPf d1).
case: E => q E; rewrite /= E /= E => /(_ n0) <-; by rewrite /deref /= /put eqxx.
Qed.

(* ---- the heap model refines the pure one -------------------------------- *)
(* the arrays passed to update(), as they were at the time of the call *)
Fixpoint batches (caller : nat -> arr F) (p : seq (hcmd F)) : seq (arr F) :=
  match p with
  | [::] => [::]
  | HUpdate a :: p' => caller a :: batches caller p'
  | HWrite a x :: p' => batches (put caller a x) p'
  | _ :: p' => batches caller p'
  end.

Definition no_result_writes p : bool :=
  all (fun c => if c is HWriteResult _ _ then false else true) p.
Definition no_writes p : bool :=
  all (fun c => match c with HWriteResult _ _ | HWrite _ _ => false | _ => true end) p.

Lemma put_same (A : Type) (f : nat -> A) k v : put f k v k = v.
Proof. by rewrite /put eqxx. Qed.

Lemma load_update st a :
  load (st_heap (h_update st a)) (st_est (h_update st a)) =
  (store_update (load (st_heap st) (st_est st)) (hp_arr (st_heap st) a)).1 /\
  hp_arr (st_heap (h_update st a)) = hp_arr (st_heap st).
Proof.
case: st => -[nx mus arrs] [am d n [M|] vs] rs; rewrite /h_update /load /=.
  rewrite /cov_update; case: (as_rows _) => cc X /=; case: ifP => _ //=.
  by case: ifP => _ //=; rewrite put_same.
rewrite /mean_update; case: (as_rows _) => cc X /=; case: ifP => _ //=.
by case: ifP => _ //=; rewrite put_same.
Qed.

Lemma load_run st p : no_result_writes p ->
  load (st_heap (h_run st p)) (st_est (h_run st p)) =
  run_any (@store_update F) (load (st_heap st) (st_est st)) (batches (hp_arr (st_heap st)) p).
Proof.
elim: p st => [//|c p IH] st /= /andP[hc hp]; rewrite IH //.
case: c hc => [a||a x|k v] //= _.
by have [-> ->] := load_update st a.
Qed.

(* As long as the client does not write into returned arrays, the estimate is
   that of the pure model on the batches as they were when passed. *)
Theorem C09_heap_refines_values caller d c r p :
  no_result_writes p ->
  h_estimate (h_run (h_new caller d c r) p) =
  mest_estimate (run_any (@mest_update F) (mest_init F d c r) (batches caller p)).
Proof.
move=> hp; rewrite /h_estimate /mest_estimate load_run //.
have -> : load (st_heap (h_new caller d c r)) (st_est (h_new caller d c r)) = ms_store (mest_init F d c r).
  by rewrite /load /h_new /mest_init; case: c.
move: (batches caller p) => h; rewrite (_ : ms_store (run_any _ _ h) =
   run_any (@store_update F) (ms_store (mest_init F d c r)) h) //.
elim: h (mest_init F d c r) => [//|x h IH] st /=; rewrite IH; congr run_any.
rewrite /mest_update.
case: x => [y|ys|cc X] /=; case: (ms_store st) => m /=;
  by rewrite ?/mean_update ?/cov_update /=; do ?(case: ifP => _ //=).
Qed.

(* hence "a returned estimate is a snapshot" is false for dim 2: the mean of
   (1,1) read after the first batch later shows the mean of (1,1) and (3,3) *)
Theorem C09_vector_snapshot_refuted c r :
  ~ (forall caller p1 p2 k,
      let st1 := h_run (h_new caller 2 c r) p1 in
      let st2 := h_run st1 p2 in
      (k < size (st_results st1))%N ->
      deref st2 (nth (HFloat (NaN : xnum F)) (st_results st2) k) =
      deref st1 (nth (HFloat NaN) (st_results st1) k)).
Proof.
pose b0 : arr F := Arr2 2 [:: [:: 1; 1]]; pose b1 : arr F := Arr2 2 [:: [:: 3%:R; 3%:R]].
pose caller (a : nat) := if a == 0%N then b0 else b1.
pose p1 := [:: HUpdate 0; HRead] : seq (hcmd F); pose p2 := [:: HUpdate 1] : seq (hcmd F).
have r1 : (0 < size (st_results (h_run (h_new caller 2 c r) p1)))%N.
  by rewrite /= /h_read /= size_rcons.
move/(_ caller p1 p2 0%N r1).
have hE (h : seq (arr F)) : all (good_batch 2) h -> run_any (@mest_update F) (mest_init F 2 c r) h =
   mest_of 2 c r (all_rows h) (last_delta 2 [::] (nseq 2 PInf) h).
  rewrite mest_init_of -[all_rows h]cat0s.
  move: [::] (nseq 2 PInf) => X dl; elim: h X dl => [|x h IH] X dl /=; first by rewrite cats0.
  by case/andP=> gx gh; rewrite mest_update_good //= IH // -catA.
have rr : nth (HFloat NaN) (st_results (h_run (h_new caller 2 c r) p1)) 0 = HRef F 0.
  by rewrite /= /h_read /= /h_update /=; case: (c).
have n1 : he_n (st_est (h_run (h_new caller 2 c r) p1)) <> 0%N.
  by rewrite /= /h_update /=; case: (c).
have n2 : he_n (st_est (h_run (h_run (h_new caller 2 c r) p1) p2)) <> 0%N.
  by rewrite /= /h_update /=; case: (c).
have nn : nth (HFloat NaN) (st_results (h_run (h_new caller 2 c r) p1)) 0 <> HFloat NaN by rewrite rr.
have L1 := @C09_vector_estimate_is_live caller 2%N c r p1 [::] 0%N (erefl true) r1 nn n1.
have L2 := @C09_vector_estimate_is_live caller 2%N c r p1 p2 0%N (erefl true) r1 nn n2.
rewrite L2; have {}L1 : deref (h_run (h_new caller 2 c r) p1)
    (nth (HFloat NaN) (st_results (h_run (h_new caller 2 c r) p1)) 0) =
    h_estimate (h_run (h_new caller 2 c r) p1) by exact: L1.
rewrite L1 {L1 L2}.
have -> : h_run (h_run (h_new caller 2 c r) p1) p2 = h_run (h_new caller 2 c r) (p1 ++ p2) by [].
rewrite !C09_heap_refines_values // !hE //.
have three : avg [:: 1; 3%:R : F] = 2%:R.
  have t0 : (2%:R : F) != 0 by rewrite pnatr_eq0.
  apply: (mulIf t0); rewrite /avg divfK // !big_cons big_nil addr0 -[1]/(1%:R) -natrD -natrM.
  by [].
rewrite /mest_estimate /mest_of /store_of.
have e12 : cavg (all_rows [:: b0; b1]) 0 = 2%:R by exact: three.
have e11 : cavg (all_rows [:: b0]) 0 = 1 by rewrite /cavg /avg /= big_cons big_nil addr0 divr1.
have ne : (2%:R : F) <> 1 by move/eqP; rewrite -[1]/(1%:R) eqr_nat.
by case: (c) => -[]; rewrite ?e12 ?e11.
Qed.

(* ---- recorded values ------------------------------------------------------ *)
(* Without writes by the client, the record is what the pure model says ... *)
Theorem C09_record_without_writes caller d c p h :
  no_writes p -> h = batches caller p -> all (good_batch d) h ->
  h_values (h_run (h_new caller d c true) p) = Some (all_rows h).
Proof.
move=> hp -> .
have gen st vs (X : seq (seq F)) : hp_arr (st_heap st) = caller ->
    load (st_heap st) (st_est st) = store_of d c X ->
    he_values (st_est st) = Some vs ->
    all (good_batch d) (batches caller p) ->
    h_values (h_run st p) = Some ([seq nth [::] (rows_of (caller q.1)) q.2 | q <- vs] ++ all_rows (batches caller p)).
  elim: p hp st vs X => [|cm p IH] hp st vs X ec el ev; first by rewrite /h_values /= ev ec cats0.
  case/andP: hp => hc hp; case: cm hc => [a||a x|k v] //= _; last by move=> gh; apply: (IH hp _ _ X).
  case/andP=> ga gh.
  have [l1 l2] := load_update st a.
  rewrite ec el in l1 l2.
  have su : store_update (store_of d c X) (caller a) = (store_of d c (X ++ rows_of (caller a)), None).
    by rewrite /store_of; case: (c) => /=; rewrite ?cov_update_good ?mean_update_good.
  rewrite su /= in l1.
  have ev' : he_values (st_est (h_update st a)) = Some (vs ++ [seq (a, i) | i <- iota 0 (size (rows_of (caller a)))]).
    by rewrite /h_update ec el su /= ev.
  rewrite (IH hp _ _ _ l2 l1 ev' gh) map_cat -catA; congr (Some (_ ++ _)).
  rewrite /all_rows /= -map_comp; congr (_ ++ _).
  rewrite -[RHS](mkseq_nth [::]); exact: eq_map.
move=> gh; rewrite (gen _ [::] [::]) //.
by rewrite /load /h_new /store_of -cov_init_of -mean_init_of; case: (c).
Qed.

(* ... but the recorded rows are views of the caller's arrays: overwriting a
   batch afterwards rewrites the history. *)
Theorem C09_record_is_snapshot_refuted c :
  ~ (forall caller p1 p2, no_result_writes (p1 ++ p2) ->
      all (fun cm => if cm is HUpdate _ then false else true) p2 ->
      h_values (h_run (h_run (h_new caller 1 c true) p1) p2) =
      h_values (h_run (h_new caller 1 c true) p1 : hstate F)).
Proof.
move/(_ (fun _ => Arr1 [:: 1]) [:: HUpdate 0] [:: HWrite 0 (Arr1 [:: 0])] erefl erefl).
rewrite /h_values /= /h_update /=; case: c => /= -[] e; move/eqP: (oner_neq0 F); by rewrite e.
Qed.

(* concrete run used by the theorems above is not degenerate *)
Example ex_C09 : exists caller p,
  [/\ no_writes p, all (good_batch 2) (batches caller p) & (1 < size (batches caller p))%N].
Proof.
exists (fun a => if a == 0%N then Arr2 2 [:: [:: 1; 1]] else Arr2 2 [:: [:: 3%:R; 3%:R]; [:: 0; 1]]).
by exists [:: HUpdate 0; HRead; HUpdate 1].
Qed.
End Props.

Print Assumptions C09_scalar_estimate_is_snapshot.
Print Assumptions C09_vector_estimate_is_live.
Print Assumptions C09_writing_a_result.
Print Assumptions C09_heap_refines_values.
Print Assumptions C09_vector_snapshot_refuted.
Print Assumptions C09_record_without_writes.
Print Assumptions C09_record_is_snapshot_refuted.
