(* Properties C40, C41, C24 (for diag), C81: diag *)
From Coq Require Import String.
From mathcomp Require Import all_ssreflect all_algebra zify ring.
From Verif Require Import Base Spec ModelStats LemStats PropStats ModelEstimators LemEstimators LemEst2
  PropEstimators ModelTyping ModelRandom ModelTrace LemTrace PropTrace PropUnbiased.
Set Implicit Arguments.
Unset Strict Implicit.
Unset Printing Implicit Defensive.
Import Order.TTheory GRing.Theory Num.Theory.
Local Open Scope ring_scope.

Section Diag.
Variable F : rcfType.
Variables (G : Type) (unif : G -> rat * G) (gauss : G -> F * G).
Variables (tppf : F -> nat -> F) (zq : F -> F).
Variable N : nat.
Implicit Types (sample : sampler F G N) (g : G) (A : 'M[F]_N) (c : crit F) (r full cb : bool) (vs : seq 'cV[F]_N).
Local Notation run := (run F G N).
Local Notation diag := (@diag F G tppf zq N).
Local Notation call := (crit_call tppf zq).

(* quotient of the running sums for coordinate i after the probes vs *)
Definition ratio A vs (i : 'I_N) : F :=
  (\sum_(v <- vs) (A *m v) i 0 * v i 0) / (\sum_(v <- vs) v i 0 ^+ 2).

(* the probes: one column per call *)
Definition dprobes sample k g : seq 'cV[F]_N := flatten (batches sample 1 k g).

Definition rows_after A vs : seq (seq F) :=
  [seq [seq ratio A (take k.+1 vs) i | i <- enum 'I_N] | k <- iota 0 (size vs)].
Definition dfed A vs : seq (arr F) := [seq Arr2 N [:: x] | x <- rows_after A vs].

Lemma rows_after_rcons A vs v :
  rows_after A (rcons vs v) = rcons (rows_after A vs) [seq ratio A (rcons vs v) i | i <- enum 'I_N].
Proof.
rewrite /rows_after size_rcons -[(size vs).+1]addn1 iotaD add0n map_cat /= cats1.
have -> : take (size vs).+1 (rcons vs v) = rcons vs v by rewrite take_oversize // size_rcons.
congr rcons; apply/eq_in_map => k; rewrite mem_iota add0n => /andP[_ hk].
by rewrite -cats1 takel_cat.
Qed.

Lemma dfed_rcons A vs v :
  dfed A (rcons vs v) = rcons (dfed A vs) (Arr2 N [:: [seq ratio A (rcons vs v) i | i <- enum 'I_N]]).
Proof. by rewrite /dfed rows_after_rcons map_rcons. Qed.

Lemma all_rows_dfed A vs : all_rows (dfed A vs) = rows_after A vs.
Proof.
rewrite /dfed /all_rows; elim: (rows_after A vs) => [//|x s IH] /=.
by rewrite IH.
Qed.

Lemma size_rows_after A vs : size (rows_after A vs) = size vs.
Proof. by rewrite size_map size_iota. Qed.

Definition dest r A vs : mest F :=
  mest_of N false r (rows_after A vs) (last_delta N [::] (nseq N PInf) (dfed A vs)).

Lemma dfed_good A vs : all (@good_batch F N) (dfed A vs).
Proof.
rewrite all_map; apply/allP => x _ /=.
by rewrite /good_batch /cols_of /rows_of /= eqxx.
Qed.

Lemma dest_run r A vs :
  run_hist (@mest_update F) (mest_init F N false r) (dfed A vs) = Some (dest r A vs).
Proof. by rewrite mest_hist ?dfed_good // all_rows_dfed. Qed.

Lemma dest_rcons r A vs v :
  mest_update (dest r A vs) (Arr2 N [:: [seq ratio A (rcons vs v) i | i <- enum 'I_N]]) = (dest r A (rcons vs v), None).
Proof.
rewrite /dest mest_update_good; last by rewrite /good_batch /cols_of /rows_of /= eqxx.
rewrite dfed_rcons last_delta_rcons -dfed_rcons !cat0s !all_rows_dfed rows_after_rcons.
by rewrite /rows_of /= cats1.
Qed.

Definition numer A vs : 'cV[F]_N := \col_i (\sum_(v <- vs) (A *m v) i 0 * v i 0).
Definition denom vs : 'cV[F]_N := \col_i (\sum_(v <- vs) v i 0 ^+ 2).

Definition dseen (nt : bool) r A vs : seq (eresult F (mest F)) :=
  if nt then [seq EResult (Some (dest r A (take k.+1 vs))) (PFloat (Fin 0)) 0 | k <- iota 0 (size vs)] else [::].

Lemma dseen_rcons nt r A vs v : dseen nt r A (rcons vs v) =
  if nt then rcons (dseen nt r A vs) (EResult (Some (dest r A (rcons vs v))) (PFloat (Fin 0)) 0)
  else dseen nt r A vs.
Proof.
case: nt => //=; rewrite size_rcons -[(size vs).+1]addn1 iotaD add0n map_cat /= cats1.
have -> : take (size vs).+1 (rcons vs v) = rcons vs v by rewrite take_oversize // size_rcons.
congr rcons; apply/eq_in_map => k; rewrite mem_iota add0n => /andP[_ hk].
by rewrite -cats1 takel_cat.
Qed.

Section Run.
Variables (nt r : bool) (A : 'M[F]_N) (sample : sampler F G N) (g : G) (c : crit F).
Hypothesis ok : sample_ok sample.

Definition dst k : dstate F G N :=
  let vs := dprobes sample k g in
  DState (dest r A vs) (gen_after sample 1 k g) (numer A vs) (denom vs) (dseen nt r A vs) vs.

Lemma dprobes_S k : dprobes sample k.+1 g =
  rcons (dprobes sample k g) (head 0 (sample 1%N (gen_after sample 1 k g)).1).
Proof.
rewrite /dprobes batches_rcons flatten_rcons -cats1; congr (_ ++ _).
by have := ok 1%N (gen_after sample 1 k g); case: (sample _ _).1 => [|v []].
Qed.

Lemma diag_body_after k : diag_body A sample nt (dst k) = Ok (dst k.+1).
Proof.
rewrite /diag_body /dst gen_after_S dprobes_S [ds_gen _]/=.
case e: (sample _ _) => [ws g'] /=; set v := head 0 ws; set vs := dprobes _ _ _.
have en : numer A vs + \col_i ((A *m v) i 0 * v i 0) = numer A (rcons vs v).
  by apply/matrixP => i j; rewrite !mxE -cats1 big_cat big_seq1 /= ?mxE.
have ed : denom vs + \col_i (v i 0 ^+ 2) = denom (rcons vs v).
  by apply/matrixP => i j; rewrite !mxE -cats1 big_cat big_seq1.
rewrite en ed.
have -> : vdiv (numer A (rcons vs v)) (denom (rcons vs v)) = [seq ratio A (rcons vs v) i | i <- enum 'I_N].
  by apply: eq_map => i; rewrite !mxE.
by rewrite dest_rcons dseen_rcons.
Qed.

Let next (s : dstate F G N) := match diag_body A sample nt s with Ok s' => s' | Err _ => s end.

Lemma diter_next k : iter k next (dst 0) = dst k.
Proof. by elim: k => [//|k IH]; rewrite iterS IH /next diag_body_after. Qed.

Lemma dstep_inv s : (exists k, s = dst k) ->
  diag_body A sample nt s = Ok (next s) /\ exists k, next s = dst k.
Proof. by case=> k ->; rewrite /next diag_body_after; split=> //; exists k.+1. Qed.

Lemma dst0E : DState (mest_init F N false r) g 0 0 [::] [::] = dst 0.
Proof.
rewrite /dst /dest /= mest_init_of /dseen /numer /denom; congr (DState _ _ _ _ _ _); last by case: nt.
  by apply/matrixP => i j; rewrite !mxE big_nil.
by apply/matrixP => i j; rewrite !mxE big_nil.
Qed.

Definition dtest k := call c (mest_view (dest r A (dprobes sample k g))).
Local Notation dloop f := (while_not f (diag_test tppf zq c) (diag_body A sample nt) (DState (mest_init F N false r) g 0 0 [::] [::])).

Lemma dloop_some f out : dloop f = Some out ->
  exists k, [/\ (k < f)%N, forall j, (j < k)%N -> dtest j = Ok false &
    match out with
    | Ok s => dtest k = Ok true /\ s = dst k
    | Err e => dtest k = Err e
    end].
Proof.
rewrite dst0E => /(while_some dstep_inv) [|k [hk hj ht]]; first by exists 0%N.
exists k; split=> //; first by move=> j /hj; rewrite diter_next.
by case: out ht => [s|e]; rewrite diter_next.
Qed.

Lemma dloop_none f : dloop f = None -> forall k, (k < f)%N -> dtest k = Ok false.
Proof.
rewrite dst0E => /(while_none dstep_inv) h k hk; rewrite /dtest.
by rewrite -(h _ k hk) ?diter_next //; exists 0%N.
Qed.

Lemma dloop_stop f k : (k < f)%N -> (forall j, (j < k)%N -> dtest j = Ok false) -> dtest k = Ok true ->
  dloop f = Some (Ok (dst k)).
Proof.
move=> hk hj ht; rewrite dst0E -(diter_next k); apply: (while_stop dstep_inv) => //; first by exists 0%N.
  by move=> j /hj; rewrite diter_next.
by rewrite diter_next.
Qed.

Lemma dloop_raise f k e : (k < f)%N -> (forall j, (j < k)%N -> dtest j = Ok false) -> dtest k = Err e ->
  dloop f = Some (Err e).
Proof.
move=> hk hj ht; case E: (dloop f) => [out|]; last first.
  by have := dloop_none E hk; rewrite ht.
have [k' [hk' hj' ho]] := dloop_some E.
have kk : k' = k.
  case: (ltngtP k' k) => // [lt|lt]; last by have := hj' _ lt; rewrite ht.
  by have := hj _ lt; case: (out) ho => [s [-> _]|e' ->].
by move: ho; rewrite kk ht; case: (out) => [s []|e' [->]].
Qed.

Lemma dloop_diverge f : (forall k, dtest k = Ok false) -> dloop f = None.
Proof.
move=> h; rewrite dst0E; apply: (while_diverge dstep_inv); first by exists 0%N.
by move=> k; rewrite diter_next; exact: h.
Qed.
End Run.

(* what diag does, in closed form *)
Definition drun full cb r A sample k g : run :=
  let vs := dprobes sample k g in
  let m := mest_estimate (dest r A vs) in
  Run (if full || cb then TPair m (EResult (Some (dest r A vs)) m 0) else TScalar m)
      (dseen cb r A vs) vs (gen_after sample 1 k g).

Lemma diag_some fuel A sample c full cb r g out : sample_ok sample -> (0 < N)%N ->
  diag fuel A sample c full cb r g = Some out ->
  exists k, [/\ (k < fuel)%N, forall j, (j < k)%N -> dtest r A sample g c j = Ok false &
   match out with
   | Err e => dtest r A sample g c k = Err e
   | Ok rn => dtest r A sample g c k = Ok true /\ rn = drun full cb r A sample k g
   end].
Proof.
move=> ok N0; rewrite /ModelTrace.diag [N == 0%N]eqn0Ngt N0 /=.
case E: (while_not _ _ _ _) => [o|//]; have [k [hk hj ho]] := dloop_some ok E.
by case: o ho {E} => [s [ht ->]|e ht] [<-]; exists k; split.
Qed.

Lemma diag_stop fuel A sample c full cb r g k : sample_ok sample -> (0 < N)%N -> (k < fuel)%N ->
  (forall j, (j < k)%N -> dtest r A sample g c j = Ok false) -> dtest r A sample g c k = Ok true ->
  diag fuel A sample c full cb r g = Some (Ok (drun full cb r A sample k g)).
Proof.
move=> ok N0 hk hj ht; rewrite /ModelTrace.diag [N == 0%N]eqn0Ngt N0 /=.
by rewrite (dloop_stop cb ok hk hj ht).
Qed.

Lemma diag_diverge fuel A sample c full cb r g : sample_ok sample -> (0 < N)%N ->
  (forall k, dtest r A sample g c k = Ok false) -> diag fuel A sample c full cb r g = None.
Proof.
by move=> ok N0 h; rewrite /ModelTrace.diag [N == 0%N]eqn0Ngt N0 /= (dloop_diverge cb ok).
Qed.

Lemma size_dprobes sample k g : sample_ok sample -> size (dprobes sample k g) = k.
Proof. by move=> ok; rewrite /dprobes size_flatten_batches // muln1. Qed.

(* ---- C40 ------------------------------------------------------------------ *)
(* the returned vector: mean over k of the running ratios *)
Theorem C40_diag_value fuel A sample c full cb r g (out : run) :
  sample_ok sample -> (0 < N)%N -> diag fuel A sample c full cb r g = Some (Ok out) ->
  let vs := run_probes out in
  pyval_x N (ret_value (run_ret out)) =
    (if vs is [::] then [:: NaN]
     else [seq Fin (avg [seq (\sum_(v <- take k.+1 vs) (A *m v) i 0 * v i 0) / (\sum_(v <- take k.+1 vs) v i 0 ^+ 2)
                          | k <- iota 0 (size vs)]) | i <- enum 'I_N])
  /\ vs = (dprobes sample (size vs) g).
Proof.
move=> ok N0 /(diag_some ok N0) [k [hk hj [ht ->]]] /=.
have -> : ret_value (if full || cb then
     TPair (mest_estimate (dest r A (dprobes sample k g)))
       (EResult (Some (dest r A (dprobes sample k g))) (mest_estimate (dest r A (dprobes sample k g))) 0)
     else TScalar (mest_estimate (dest r A (dprobes sample k g)))) = mest_estimate (dest r A (dprobes sample k g)).
  by case: ifP.
rewrite size_dprobes //; split=> //.
rewrite /mest_estimate /dest /=; set vs := dprobes sample k g.
have hs : size vs = k by exact: size_dprobes.
case: k hk hj ht @vs hs => [|k] hk hj ht vs hs; first by rewrite (size0nil hs).
rewrite pyval_x_read //; last by rewrite size_rows_after hs.
case: vs hs => [//|v vs] hs; apply: (@eq_from_nth _ NaN); first by rewrite size_mkseq size_map size_enum_ord.
move=> i; rewrite size_mkseq => hi; rewrite nth_mkseq // (nth_map (Ordinal N0)) ?size_enum_ord // .
congr Fin; rewrite /cavg /col_of; congr avg; rewrite -map_comp hs.
apply: eq_map => j /=; rewrite (nth_map (Ordinal N0)) ?size_enum_ord //.
Qed.

Lemma sumsq_gt0 vs (i : 'I_N) : (0 < size vs)%N -> (forall v, v \in vs -> v i 0 != 0) ->
  0 < \sum_(v <- vs) v i 0 ^+ 2.
Proof.
case: vs => [//|v vs] _ nz; rewrite big_cons ltr_paddr ?sumr_ge0 // => [w _|]; first exact: sqr_ge0.
by rewrite exprn_even_gt0 //= nz // inE eqxx.
Qed.

Lemma avg_const (T : Type) (s : seq T) (x : F) : (0 < size s)%N -> avg [seq x | _ <- s] = x.
Proof.
move=> h; rewrite /avg big_map big_const_seq count_predT iter_addr_0 size_map -[_ *+ size s]mulr_natr mulfK //.
by rewrite pnatr_eq0 -lt0n.
Qed.

(* probes without zero entries and a diagonal operator: exact *)
Theorem C40_diagonal_exact fuel (d : 'rV[F]_N) sample c full cb r g (out : run) :
  sample_ok sample -> (0 < N)%N ->
  diag fuel (diag_mx d) sample c full cb r g = Some (Ok out) ->
  (0 < size (run_probes out))%N ->
  (forall v i, v \in run_probes out -> v i 0 != 0) ->
  pyval_x N (ret_value (run_ret out)) = [seq Fin (d 0 i) | i <- enum 'I_N].
Proof.
move=> ok N0 h hs nz; have [-> _] := C40_diag_value ok N0 h.
case: (run_probes out) hs nz => [//|v vs] hs nz.
apply: eq_map => i; congr Fin; rewrite -[RHS](@avg_const _ (iota 0 (size (v :: vs)))) ?size_iota //.
congr avg; apply/eq_in_map => k _.
have -> : \sum_(v0 <- take k.+1 (v :: vs)) (diag_mx d *m v0) i 0 * v0 i 0 =
   d 0 i * \sum_(v0 <- take k.+1 (v :: vs)) v0 i 0 ^+ 2.
  by rewrite big_distrr /=; apply: eq_bigr => w _; rewrite mul_diag_mx mxE expr2 mulrA.
rewrite mulfK // gt_eqF // sumsq_gt0 // => w hw; apply: nz; exact: mem_take hw.
Qed.

(* ---- weights for +-1 probes ------------------------------------------------ *)
(* probe j (from 0) of k gets weight (1/k) * (1/(j+1) + ... + 1/k) *)
Definition weight (k j : nat) : F := (\sum_(j <= l < k) l.+1%:R^-1) / k%:R.

Theorem C40_sign_probes_weighted_mean fuel A sample c full cb r g (out : run) :
  sample_ok sample -> (0 < N)%N -> diag fuel A sample c full cb r g = Some (Ok out) ->
  let vs := run_probes out in
  (0 < size vs)%N -> (forall v i, v \in vs -> v i 0 = 1 \/ v i 0 = -1) ->
  pyval_x N (ret_value (run_ret out)) =
    [seq Fin (\sum_(j < size vs) weight (size vs) j * ((A *m vs`_j) i 0 * vs`_j i 0)) | i <- enum 'I_N].
Proof.
move=> ok N0 h vs hs pm; have [-> _] := C40_diag_value ok N0 h; rewrite -/vs.
case E: vs (hs) => [//|v0 vs0] _; rewrite -E; apply: eq_map => i; congr Fin.
pose x j := (A *m vs`_j) i 0 * vs`_j i 0.
have rt k : (k < size vs)%N -> (\sum_(v <- take k.+1 vs) (A *m v) i 0 * v i 0) / (\sum_(v <- take k.+1 vs) v i 0 ^+ 2) =
   \sum_(j < size vs) (if (j <= k)%N then k.+1%:R^-1 * x j else 0).
  move=> hk; have st : size (take k.+1 vs) = k.+1 by rewrite size_takel.
  have -> : \sum_(v <- take k.+1 vs) v i 0 ^+ 2 = k.+1%:R.
    rewrite (eq_big_seq (fun=> 1)) => [|v hv]; last first.
      by case: (pm v i (mem_take hv)) => ->; rewrite ?sqrrN expr1n.
    by rewrite big_const_seq count_predT st iter_addr_0.
  rewrite (big_nth 0) st big_mkord mulrC big_distrr /= -big_mkcond /=.
  rewrite (big_ord_widen_cond _ xpredT (fun j => k.+1%:R^-1 * ((A *m (take k.+1 vs)`_j) i 0 * (take k.+1 vs)`_j i 0)) hk) /=.
  by apply: eq_big => j //= hj; rewrite nth_take.
rewrite /avg size_map size_iota big_map.
rewrite (eq_big_seq (fun k : nat => \sum_(j < size vs) (if (j <= k)%N then k.+1%:R^-1 * x j else 0))) => [|k]; last first.
  by rewrite mem_iota add0n => /andP[_ hk]; exact: rt.
rewrite exchange_big /= big_distrl /=; apply: eq_bigr => j _.
rewrite /weight -/(x j) mulrAC; congr (_ / _).
rewrite big_distrl /=.
have -> : iota 0 (size vs) = index_iota 0 (size vs) by rewrite /index_iota subn0.
rewrite (big_cat_nat _ _ _ (leq0n j)) /=; last exact: ltnW.
rewrite big_nat_cond big1 ?add0r => [|k /andP[/andP[_ hk] _]]; last by rewrite leqNgt hk.
by rewrite [LHS]big_nat_cond [RHS]big_nat_cond; apply: eq_bigr => k /andP[/andP[hk _] _]; rewrite hk.
Qed.

Theorem C40_weights_sum_to_one k : (0 < k)%N -> \sum_(j < k) weight k j = 1.
Proof.
move=> k0; rewrite /weight -big_distrl /=.
have -> : \sum_(j < k) \sum_(j <= l < k) l.+1%:R^-1 = k%:R :> F; last by rewrite divff // pnatr_eq0 -lt0n.
elim: k {k0} => [|k IH]; first by rewrite big_ord0.
rewrite big_ord_recr /= big_nat1.
rewrite (eq_bigr (fun j : 'I_k => \sum_(j <= l < k) l.+1%:R^-1 + k.+1%:R^-1)) => [|j _]; last first.
  by rewrite big_nat_recr //= ltnW.
rewrite big_split /= IH sumr_const card_ord -addrA -mulrSr -[_ *+ k.+1]mulr_natr mulVf ?pnatr_eq0 //.
by rewrite -mulrSr.
Qed.

(* earlier probes weigh more: the claim "plain mean" is false for k >= 2 *)
Theorem C40_weights_decrease k j : (j.+1 < k)%N -> weight k j.+1 < weight k j.
Proof.
move=> h; rewrite /weight ltr_pmul2r ?invr_gt0 ?ltr0n ?(leq_trans _ h) //.
by rewrite [X in _ < X]big_ltn ?(ltnW h) // ltr_addr invr_gt0 ltr0n.
Qed.

Theorem C40_plain_mean_refuted k : (1 < k)%N -> ~ (forall j, (j < k)%N -> weight k j = k%:R^-1).
Proof.
move=> k1 h; have := @C40_weights_decrease k 0 k1.
by rewrite !h // ?(ltnW k1) // ltxx.
Qed.

(* ---- C24 for diag ----------------------------------------------------------- *)
Theorem C24_diag_knee_without_record_diverges fuel A sample s full cb g :
  sample_ok sample -> (0 < N)%N ->
  diag fuel A sample (CKnee s) full cb false g = None.
Proof. by move=> ok N0; apply: diag_diverge. Qed.

Lemma norm1d_ok o (l : seq (xnum F)) : o <> OrdStr -> (0 < size l)%N -> is_ok (norm1d o l).
Proof. by case: o => // _; case: l. Qed.

Lemma dest_delta_gt0 r A vs : (0 < N)%N -> (0 < size (ms_delta (dest r A vs)))%N.
Proof.
move=> N0; rewrite /dest /=; case/lastP: vs => [|vs v]; first by rewrite /= size_nseq.
by rewrite dfed_rcons last_delta_rcons size_mkseq.
Qed.

Lemma dest_estimate_gt0 r A vs : (0 < N)%N -> (0 < size (pyval_x N (mest_estimate (dest r A vs))))%N.
Proof.
move=> N0; rewrite /mest_estimate /dest /=; case: vs => [//|v vs].
by rewrite pyval_x_read ?size_mkseq // size_rows_after.
Qed.

Theorem C24_diag_zero_tolerance_diverges fuel A sample o full cb r g :
  sample_ok sample -> (0 < N)%N -> o <> OrdStr ->
  diag fuel A sample (CTol (Fin 0) (Fin 0) o) full cb r g = None.
Proof.
move=> ok N0 no; apply: diag_diverge => // k; rewrite /dtest.
have := @C15_zero_tolerances_never F tppf zq o (mest_view (dest r A (dprobes sample k g))).
set e := mest_view _; suff : is_ok (call (CTol (Fin 0) (Fin 0) o) e) by case: (call _ e) => [[]|].
have h1 : is_ok (norm_d o (ev_delta e)) by apply: norm1d_ok => //; exact: dest_delta_gt0.
have h2 : is_ok (norm1d o (pyval_x N (mest_estimate (dest r A (dprobes sample k g))))).
  by apply: norm1d_ok => //; exact: dest_estimate_gt0.
rewrite -[call _ e]/(tol_call (Fin 0) (Fin 0) o e) /tol_call.
have -> : ev_estimate e = Ok (pyval_x N (mest_estimate (dest r A (dprobes sample k g)))) by [].
case: (norm_d o _) h1 => [a|//] _; rewrite /bind; case: ifP => // _.
by case: (norm1d o _) h2.
Qed.

(* ---- C81: the confidence criterion cannot drive diag ------------------------- *)
(* diag builds its estimator without covariance, so the third probe is fatal *)
Theorem C81_diag_confidence_raises fuel A sample q atol rtol full cb r g :
  sample_ok sample -> (0 < N)%N -> (3 < fuel)%N -> atol <> PInf -> rtol <> PInf ->
  diag fuel A sample (CConf q atol rtol) full cb r g = Some (Err AttributeError).
Proof.
move=> ok N0 hf ha hr.
have t k : dtest r A sample g (CConf q atol rtol) k = if (k < 3)%N then Ok false else Err AttributeError.
  rewrite /dtest /= /conf_call /= /conf_error /= size_rows_after size_dprobes //; case: ifP => //= _.
  by case: (atol) ha => //; case: (rtol) hr.
rewrite /ModelTrace.diag [N == 0%N]eqn0Ngt N0 /=.
by rewrite (@dloop_raise cb r A sample g _ ok fuel 3 AttributeError) // => [j hj|]; rewrite t ?hj.
Qed.

(* a count works: exactly max(n,0) probes *)
Theorem C81_diag_count fuel A sample n full cb r g :
  sample_ok sample -> (0 < N)%N -> (pos_part n < fuel)%N ->
  exists out, diag fuel A sample (CCount F n) full cb r g = Some (Ok out) /\ size (run_probes out) = pos_part n.
Proof.
move=> ok N0 hf.
have t k : dtest r A sample g (CCount F n) k = Ok (n <= k%:Z).
  by rewrite /dtest /= /count_call /= size_rows_after size_dprobes.
exists (drun full cb r A sample (pos_part n) g); split; last by rewrite /= size_dprobes.
apply: diag_stop => // [j|]; rewrite t; case: (n) => [m|m] //=; rewrite lez_nat ?leqnn // ltnNge => /negPf -> //.
Qed.

(* ---- C41 --------------------------------------------------------------------- *)
(* two outcomes agree up to reporting: both loop for ever, or raise the same
   exception, or return the same value having drawn the same probes *)
Definition same_outcome (o o' : option (res run)) : Prop :=
  match o, o' with
  | None, None => True
  | Some (Err e), Some (Err e') => e = e'
  | Some (Ok x), Some (Ok x') =>
      [/\ ret_value (run_ret x) = ret_value (run_ret x'), run_probes x = run_probes x' & run_gen x = run_gen x']
  | _, _ => False
  end.

Lemma same_outcome_gen fuel A sample c full cb r full' cb' r' g : sample_ok sample ->
  (forall k, dtest r A sample g c k = dtest r' A sample g c k) ->
  same_outcome (diag fuel A sample c full cb r g) (diag fuel A sample c full' cb' r' g).
Proof.
move=> ok ht; case: (posnP N) => N0.
  by rewrite /ModelTrace.diag; case: eqP => // _; case: full; case: full'.
rewrite /ModelTrace.diag [N == 0%N]eqn0Ngt N0 /=.
case E: (while_not _ _ _ _) => [[s|e]|].
- have [k [hk hj [h ->]]] := dloop_some ok E.
  have hj' : forall j, (j < k)%N -> dtest r' A sample g c j = Ok false by move=> j /hj; rewrite ht.
  rewrite ht in h; rewrite (dloop_stop cb' ok hk hj' h) /=.
  by split=> //; case: ifP; case: ifP.
- have [k [hk hj h]] := dloop_some ok E.
  have hj' : forall j, (j < k)%N -> dtest r' A sample g c j = Ok false by move=> j /hj; rewrite ht.
  by rewrite ht in h; rewrite (dloop_raise cb' ok hk hj' h).
- case E' : (while_not _ _ _ _) => [o|//].
  have [k [hk hj h]] := dloop_some ok E'; have := dloop_none ok E hk.
  by rewrite ht; case: o h {E'} => [s [-> _]|e ->].
Qed.

(* full and callback never matter *)
Theorem C41_reporting_irrelevant fuel A sample c full cb full' cb' r g : sample_ok sample ->
  same_outcome (diag fuel A sample c full cb r g) (diag fuel A sample c full' cb' r g).
Proof. by move=> ok; apply: same_outcome_gen. Qed.

(* record neither, for a criterion that does not look at the record *)
Definition ignores_values c : Prop := forall e v,
  call c e = call c (EView (ev_len e) (ev_is_mean e) (ev_nsamples e) (ev_delta e) (ev_estimate e) v (ev_cov e)).

Theorem C41_record_irrelevant fuel A sample c full cb r full' cb' r' g : sample_ok sample -> ignores_values c ->
  same_outcome (diag fuel A sample c full cb r g) (diag fuel A sample c full' cb' r' g).
Proof. by move=> ok iv; apply: same_outcome_gen => // k; rewrite /dtest (iv _ None) [RHS](iv _ None). Qed.

(* which the count, tolerance and confidence criteria do not, nor their
   combinations; the knee criterion does *)
Fixpoint valueless c : bool :=
  match c with
  | CCount _ | CTol _ _ _ | CConf _ _ _ => true
  | CKnee _ | CFun _ => false
  | COr a b | CAnd a b => valueless a && valueless b
  | CNot a => valueless a
  end.
Theorem C41_builtin_criteria_ignore_record c : valueless c -> ignores_values c.
Proof.
elim: c => //= [a IHa b IHb|a IHa b IHb|a IHa].
- by case/andP=> /IHa ha /IHb hb e v /=; rewrite (ha e v) (hb e v).
- by case/andP=> /IHa ha /IHb hb e v /=; rewrite (ha e v) (hb e v).
- by move=> /IHa ha e v /=; rewrite (ha e v).
Qed.

Theorem C41_pair_iff_full_or_callback fuel A sample c full cb r g (out : run) :
  diag fuel A sample c full cb r g = Some (Ok out) ->
  is_pair (run_ret out) = full || (cb && (0 < N)%N).
Proof.
rewrite /ModelTrace.diag; case: posnP => [N0|N0].
  by move=> [<-] /=; rewrite andbF orbF; case: ifP.
by rewrite andbT; case: (while_not _ _ _ _) => [[s|e]|] // [<-] /=; case: ifP.
Qed.

Theorem C41_callback_once_per_probe fuel A sample c full r g (out : run) :
  sample_ok sample -> (0 < N)%N ->
  diag fuel A sample c full true r g = Some (Ok out) ->
  size (run_seen out) = size (run_probes out) /\
  forall i res, nth None [seq Some x | x <- run_seen out] i = Some res ->
    er_estimate res = PFloat (Fin 0) /\
    exists est, er_estimator res = Some est /\
      ms_n est = i.+1.
Proof.
move=> ok N0 /(diag_some ok N0) [k [hk hj [ht ->]]] /=.
split; first by rewrite size_map size_iota.
move=> i res; rewrite -map_comp; set s := iota 0 _.
case: (ltnP i (size s)) => hi; last by rewrite nth_default // size_map.
have hi' : (i < size (dprobes sample k g))%N by rewrite /s size_iota in hi.
rewrite (nth_map 0%N) // nth_iota ?add0n //.
case=> <- /=; split=> //; eexists; split; first by [].
by rewrite /= size_rows_after size_take; move: hi'; rewrite leq_eqVlt => /orP[/eqP <-|->]; rewrite ?ltnn.
Qed.

(* unlike hutch, diag stores the estimate in the result *)
Theorem C41_result_carries_estimate fuel A sample c full cb r g (out : run) v (res : eresult F (mest F)) :
  sample_ok sample -> (0 < N)%N ->
  diag fuel A sample c full cb r g = Some (Ok out) -> run_ret out = TPair v res ->
  er_estimate res = v /\ er_nit res = 0%N.
Proof.
move=> ok N0 /(diag_some ok N0) [k [hk hj [ht ->]]] /=.
by case: ifP => // _ [<- <-].
Qed.
End Diag.

(* ---- C40: unbiased over all sign tapes ---------------------------------------- *)
Section Unbiased.
Variable F : rcfType.
Variables (X : finType) (u : X -> rat) (flip : X -> X).
Hypothesis uP : forall x, 0 <= u x < 1.
Hypothesis flipK : involutive flip.
Hypothesis flipP : forall x, (u (flip x) < 1 / 2%:R) = ~~ (u x < 1 / 2%:R).
Hypothesis X0 : (0 < #|X|)%N.
Variable gauss : seq X -> F * seq X.
Variables (tppf : F -> nat -> F) (zq : F -> F).
Variable N : nat.
Local Notation S := (iso_sampler (tape_unif u) gauss N Rademacher).

Lemma tape_unifP t : 0 <= (tape_unif u t).1 < 1.
Proof. by case: t => [|x t] /=; rewrite ?ltr01 ?lexx. Qed.

Theorem C40_diag_unbiased fuel (A : 'M[F]_N) n full cb r L :
  (0 < N)%N -> (0 < n)%N -> (n < fuel)%N -> (n * N <= L)%N ->
  exists val : seq X -> 'I_N -> F,
   (forall t : L.-tuple X, exists out,
      diag tppf zq fuel A S (CCount F n%:Z) full cb r (t : seq X) = Some (Ok out) /\
      pyval_x N (ret_value (run_ret out)) = [seq Fin (val t i) | i <- enum 'I_N]) /\
   forall i, average L (fun t => val t i) = A i i.
Proof.
move=> N0 n0 hf h.
pose val (t : seq X) i := \sum_(j < n) weight F n j * ((A *m (S n t).1`_j) i 0 * (S n t).1`_j i 0).
exists val; split=> [t|i].
  have ok := @iso_sample_ok F (seq X) (tape_unif u) gauss N Rademacher.
  have [out [e hs]] := @C81_diag_count F (seq X) tppf zq N fuel A S n%:Z full cb r t ok N0 hf.
  rewrite /pos_part in hs.
  exists out; split=> //.
  have [_ hp] := C40_diag_value ok N0 e; rewrite hs /dprobes in hp.
  have [ep _] := iso_batches (tape_unif u) gauss N Rademacher 1 n t; rewrite muln1 in ep.
  rewrite ep in hp.
  rewrite (C40_sign_probes_weighted_mean ok N0 e); first by rewrite hs hp.
    by rewrite hs.
  by move=> v i; rewrite hp => /(rademacher_probe tape_unifP).
rewrite /average /val exchange_big /=.
have E (j : 'I_n) : \sum_(t : L.-tuple X) weight F n j * ((A *m (S n t).1`_j) i 0 * (S n t).1`_j i 0) =
   weight F n j * (A i i * #|{: L.-tuple X}|%:R).
  rewrite -big_distrr /=; congr (_ * _).
  rewrite (eq_bigr (fun t => \sum_b A i b * (sg F u t (pos h j b) * sg F u t (pos h j i)))) => [|t _]; last first.
    by rewrite (entry uP gauss h) !mxE big_distrl /=; apply: eq_bigr => b _; rewrite !mxE mulrA.
  rewrite exchange_big /= (bigD1 i) //= -big_distrr /= (moment2 _ flipK flipP) eqxx mul1r.
  rewrite big1 ?addr0 // => b bi; rewrite -big_distrr /= (moment2 _ flipK flipP) pos_eq eqxx (negPf bi).
  by rewrite mul0r mulr0.
rewrite (eq_bigr _ (fun j _ => E j)) -big_distrl /= C40_weights_sum_to_one // mul1r mulfK //.
exact: card_tape.
Qed.
End Unbiased.

(* ---- concrete runs ------------------------------------------------------------- *)
Section Example.
Variable F : rcfType.
Variables (tppf : F -> nat -> F) (zq : F -> F).

(* two probes (-1,1), A = [[1,2],[3,4]]: both ratios are (-1, 1) *)
Example diag_concrete :
  exists out, diag tppf zq 5 (exM F) (exS F) (CCount F 2) false false false 0%N = Some (Ok out) /\
    size (run_probes out) = 2%N.
Proof. by apply: C81_diag_count => //; exact: exS_ok. Qed.

Example diag_confidence_concrete :
  diag tppf zq 5 (exM F) (exS F) (CConf (19%:R / 20%:R) (Fin 0) (Fin (1 / 100%:R))) true false false 0%N
  = Some (Err AttributeError).
Proof. by apply: C81_diag_confidence_raises => //; exact: exS_ok. Qed.

(* weights 3/4 and 1/4 for two probes *)
Example weights_two : weight F 2 0 = 3%:R / 4%:R /\ weight F 2 1 = 1 / 4%:R.
Proof.
split; rewrite /weight; last by rewrite big_nat1; field.
by rewrite big_ltn // big_nat1; field.
Qed.
End Example.

Print Assumptions C40_diag_value.
Print Assumptions C40_diagonal_exact.
Print Assumptions C40_sign_probes_weighted_mean.
Print Assumptions C40_weights_sum_to_one.
Print Assumptions C40_weights_decrease.
Print Assumptions C40_plain_mean_refuted.
Print Assumptions C24_diag_knee_without_record_diverges.
Print Assumptions C24_diag_zero_tolerance_diverges.
Print Assumptions C81_diag_confidence_raises.
Print Assumptions C81_diag_count.
Print Assumptions C41_reporting_irrelevant.
Print Assumptions C41_record_irrelevant.
Print Assumptions C41_builtin_criteria_ignore_record.
Print Assumptions C41_pair_iff_full_or_callback.
Print Assumptions C41_callback_once_per_probe.
Print Assumptions C41_result_carries_estimate.
Print Assumptions C40_diag_unbiased.
