(* Closed forms of the Monte-Carlo loops. *)
From Coq Require Import String.
From mathcomp Require Import all_ssreflect all_algebra.
From Verif Require Import Base Spec ModelStats LemStats ModelEstimators LemEstimators ModelTyping ModelRandom ModelTrace.
Set Implicit Arguments.
Unset Strict Implicit.
Unset Printing Implicit Defensive.
Import Order.TTheory GRing.Theory Num.Theory.
Local Open Scope ring_scope.

Section Loop.
Variables (S : Type) (test : S -> res bool) (body : S -> res S) (next : S -> S) (inv : S -> Prop).
Hypothesis step : forall st, inv st -> body st = Ok (next st) /\ inv (next st).

Lemma while_some f st r : inv st -> while_not f test body st = Some r ->
  exists k, [/\ (k < f)%N, forall j, (j < k)%N -> test (iter j next st) = Ok false &
    match r with
    | Ok st' => test (iter k next st) = Ok true /\ st' = iter k next st
    | Err e => test (iter k next st) = Err e
    end].
Proof.
elim: f st => [//|f IH] st hi /=.
case et: (test st) => [[]|e]; try by case=> <-; exists 0%N; split.
have [-> hn] := step hi; case/(IH _ hn) => k [hk hj hr]; exists k.+1; split=> //.
  by case=> [//|j] hj'; rewrite iterSr; exact: hj.
by rewrite iterSr.
Qed.

Lemma while_none f st : inv st -> while_not f test body st = None ->
  forall k, (k < f)%N -> test (iter k next st) = Ok false.
Proof.
elim: f st => [//|f IH] st hi /=.
case et: (test st) => [[]|e] //; have [-> hn] := step hi => /(IH _ hn) h [//|k] hk.
by rewrite iterSr h.
Qed.

Lemma while_stop f st k : inv st -> (k < f)%N ->
  (forall j, (j < k)%N -> test (iter j next st) = Ok false) ->
  test (iter k next st) = Ok true ->
  while_not f test body st = Some (Ok (iter k next st)).
Proof.
elim: k f st => [|k IH] [//|f] st hi hk hj ht; first by rewrite /= in ht *; rewrite ht.
have [e hn] := step hi; have := hj 0%N erefl => /= ->; rewrite e.
rewrite (IH f (next st)) // -?iterSr // => j hj'; by rewrite -iterSr hj.
Qed.

Lemma while_diverge f st : inv st -> (forall k, test (iter k next st) = Ok false) ->
  while_not f test body st = None.
Proof.
elim: f st => [//|f IH] st hi h /=; have := h 0%N => /= ->.
have [-> hn] := step hi; apply: IH => // k; by rewrite -iterSr h.
Qed.
End Loop.

Section Streams.
Variable F : rcfType.
Variables (G : Type) (unif : G -> rat * G) (gauss : G -> F * G).
Variables (tppf : F -> nat -> F) (zq : F -> F).
Variable N : nat.
Implicit Types (sample : sampler F G N) (g : G) (A : oper F N).

(* k successive calls of the sampler: what they return, the generator after *)
Fixpoint batches sample (b k : nat) g : seq (seq 'cV[F]_N) :=
  if k is k'.+1 then (sample b g).1 :: batches sample b k' (sample b g).2 else [::].
Fixpoint gen_after sample (b k : nat) g : G :=
  if k is k'.+1 then gen_after sample b k' (sample b g).2 else g.

Lemma size_batches sample b k g : size (batches sample b k g) = k.
Proof. by elim: k g => //= k IH g; rewrite IH. Qed.

Lemma batches_rcons sample b k g :
  batches sample b k.+1 g = rcons (batches sample b k g) (sample b (gen_after sample b k g)).1.
Proof.
elim: k g => [//|k IH] g.
by rewrite -[batches sample b k.+2 g]/((sample b g).1 :: batches sample b k.+1 (sample b g).2) IH.
Qed.

Lemma gen_after_S sample b k g :
  gen_after sample b k.+1 g = (sample b (gen_after sample b k g)).2.
Proof.
elim: k g => [//|k IH] g.
by rewrite -[gen_after sample b k.+2 g]/(gen_after sample b k.+1 (sample b g).2) IH.
Qed.

(* a sampler returns as many vectors as asked for *)
Definition sample_ok sample : Prop := forall b g, size (sample b g).1 = b.

Lemma all_batches sample b k g : sample_ok sample -> (0 < b)%N ->
  all (fun vs => 0 < size vs)%N (batches sample b k g).
Proof. by move=> ok b0; elim: k g => [//|k IH] g /=; rewrite ok b0 IH. Qed.

Lemma size_flatten_batches sample b k g : sample_ok sample ->
  size (flatten (batches sample b k g)) = (k * b)%N.
Proof. by move=> ok; elim: k g => [//|k IH] g /=; rewrite size_cat ok IH mulSn. Qed.

(* what the estimator receives *)
Definition fed A (bs : seq (seq 'cV[F]_N)) : seq (arr F) := [seq Arr1 [seq quad_form A v | v <- vs] | vs <- bs].

Lemma fed_good A bs : all (fun vs => 0 < size vs)%N bs -> all (@good_batch F 1) (fed A bs).
Proof.
elim: bs => [//|vs bs IH] /= /andP[h1 /IH ->]; rewrite andbT.
by rewrite /good_batch /cols_of /rows_of /= size_map size_map h1.
Qed.

Lemma all_rows_fed A bs : all_rows (fed A bs) = [seq [:: quad_form A v] | v <- flatten bs].
Proof.
elim: bs => [//|vs bs IH]; rewrite /all_rows /= in IH *.
by rewrite map_cat IH /rows_of /= -map_comp.
Qed.

Definition est_after (r : bool) A bs : mest F :=
  mest_of 1 true r (all_rows (fed A bs)) (last_delta 1 [::] (nseq 1 PInf) (fed A bs)).

Lemma est_after_run r A bs : all (fun vs => 0 < size vs)%N bs ->
  run_hist (@mest_update F) (mest_init F 1 true r) (fed A bs) = Some (est_after r A bs).
Proof. by move=> h; rewrite mest_hist ?fed_good. Qed.

Lemma est_after_rcons r A bs vs : (0 < size vs)%N ->
  mest_update (est_after r A bs) (Arr1 [seq quad_form A v | v <- vs]) = (est_after r A (rcons bs vs), None).
Proof.
move=> h; rewrite /est_after mest_update_good; last first.
  by rewrite /good_batch /cols_of /rows_of /= !size_map h.
have e : fed A (rcons bs vs) = rcons (fed A bs) (Arr1 [seq quad_form A v | v <- vs]) by rewrite /fed map_rcons.
have e2 : all_rows (fed A (rcons bs vs)) = all_rows (fed A bs) ++ rows_of (Arr1 [seq quad_form A v | v <- vs]).
  by rewrite e /all_rows map_rcons -cats1 flatten_cat /= cats0.
by rewrite [in RHS]e last_delta_rcons -e !cat0s e2.
Qed.

Definition seen_after (nt : bool) r A bs : seq (eresult F (mest F)) :=
  if nt then [seq EResult (Some (est_after r A (take k.+1 bs))) (PFloat (Fin 0)) 0 | k <- iota 0 (size bs)] else [::].

Lemma seen_rcons nt r A bs vs :
  seen_after nt r A (rcons bs vs) =
  if nt then rcons (seen_after nt r A bs) (EResult (Some (est_after r A (rcons bs vs))) (PFloat (Fin 0)) 0)
  else seen_after nt r A bs.
Proof.
case: nt => //=; rewrite size_rcons -[(size bs).+1]addn1 iotaD add0n map_cat /= cats1.
have -> : take (size bs).+1 (rcons bs vs) = rcons bs vs by rewrite take_oversize // size_rcons.
congr rcons; apply/eq_in_map => k; rewrite mem_iota add0n => /andP[_ hk].
by rewrite -cats1 takel_cat.
Qed.

Definition lstate_after (nt r : bool) A sample b k g : lstate F G N :=
  let bs := batches sample b k g in
  LState (est_after r A bs) (gen_after sample b k g) (seen_after nt r A bs) (flatten bs).

Lemma hutch_body_after nt r A sample b k g : sample_ok sample -> (0 < b)%N ->
  hutch_body A sample b%:Z nt (lstate_after nt r A sample b k g) =
  Ok (lstate_after nt r A sample b k.+1 g).
Proof.
move=> ok b0; rewrite /hutch_body /= .
case e: (sample _ _) => [vs g'].
have hv : (sample b (gen_after sample b k g)).1 = vs by rewrite e.
have hs : size vs = b by rewrite -hv ok.
rewrite est_after_rcons ?hs // /lstate_after batches_rcons hv; congr (Ok (LState _ _ _ _)).
- by rewrite gen_after_S e.
- by rewrite seen_rcons.
- by rewrite flatten_rcons.
Qed.

Section Run.
Variables (nt r : bool) (A : oper F N) (sample : sampler F G N) (b : nat) (g : G) (c : crit F).
Hypotheses (ok : sample_ok sample) (b0 : (0 < b)%N).

Let st k := lstate_after nt r A sample b k g.
Let next (s : lstate F G N) := match hutch_body A sample b%:Z nt s with Ok s' => s' | Err _ => s end.

Lemma iter_next k : iter k next (st 0) = st k.
Proof. by elim: k => [//|k IH]; rewrite iterS IH /next hutch_body_after. Qed.

Lemma step_inv s : (exists k, s = st k) ->
  hutch_body A sample b%:Z nt s = Ok (next s) /\ exists k, next s = st k.
Proof.
case=> k ->; rewrite /next hutch_body_after //; split=> //.
by exists k.+1.
Qed.

Lemma st0E : LState (mest_init F 1 true r) g [::] [::] = st 0.
Proof.
rewrite /st /lstate_after /est_after /= mest_init_of /seen_after; by case: nt.
Qed.

Let test k := crit_call tppf zq c (mest_view (est_after r A (batches sample b k g))).

Lemma loop_some f out :
  while_not f (loop_test tppf zq c) (hutch_body A sample b%:Z nt) (LState (mest_init F 1 true r) g [::] [::]) = Some out ->
  exists k, [/\ (k < f)%N, forall j, (j < k)%N -> test j = Ok false &
    match out with
    | Ok s => test k = Ok true /\ s = st k
    | Err e => test k = Err e
    end].
Proof.
rewrite st0E => /(while_some step_inv) [|k [hk hj ht]]; first by exists 0%N.
exists k; split=> //; first by move=> j /hj; rewrite iter_next.
by case: out ht => [s|e]; rewrite iter_next.
Qed.

Lemma loop_none f :
  while_not f (loop_test tppf zq c) (hutch_body A sample b%:Z nt) (LState (mest_init F 1 true r) g [::] [::]) = None ->
  forall k, (k < f)%N -> test k = Ok false.
Proof.
rewrite st0E => /(while_none step_inv) h k hk; rewrite /test.
by rewrite -(h _ k hk) ?iter_next //; exists 0%N.
Qed.

Lemma loop_stop f k : (k < f)%N -> (forall j, (j < k)%N -> test j = Ok false) -> test k = Ok true ->
  while_not f (loop_test tppf zq c) (hutch_body A sample b%:Z nt) (LState (mest_init F 1 true r) g [::] [::]) =
  Some (Ok (st k)).
Proof.
move=> hk hj ht; rewrite st0E -(iter_next k); apply: (while_stop step_inv) => //; first by exists 0%N.
  by move=> j /hj; rewrite iter_next.
by rewrite iter_next.
Qed.

Lemma loop_diverge f : (forall k, test k = Ok false) ->
  while_not f (loop_test tppf zq c) (hutch_body A sample b%:Z nt) (LState (mest_init F 1 true r) g [::] [::]) = None.
Proof.
move=> h; rewrite st0E; apply: (while_diverge step_inv); first by exists 0%N.
by move=> k; rewrite iter_next; exact: h.
Qed.
End Run.
End Streams.
