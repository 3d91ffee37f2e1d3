(* Properties C21, C22, C23, C24, C26, C28, C29, C30: hutch *)
From Coq Require Import String.
From mathcomp Require Import all_ssreflect all_algebra zify ring.
From Verif Require Import Base Spec ModelStats LemStats PropStats ModelEstimators LemEstimators LemEst2
  PropEstimators ModelTyping ModelRandom ModelTrace LemTrace.
Set Implicit Arguments.
Unset Strict Implicit.
Unset Printing Implicit Defensive.
Import Order.TTheory GRing.Theory Num.Theory.
Local Open Scope ring_scope.

Section Hutch.
Variable F : rcfType.
Variables (G : Type) (unif : G -> rat * G) (gauss : G -> F * G).
Variables (tppf : F -> nat -> F) (zq : F -> F).
Variable N : nat.
Implicit Types (sample : sampler F G N) (g : G) (A : oper F N) (c : crit F) (r full cb : bool).
Local Notation run := (run F G N).
Local Notation hutch := (@hutch F G tppf zq N).
Local Notation call := (crit_call tppf zq).

(* the quadratic form hutch is supposed to sample *)
Definition qf A (v : 'cV[F]_N) : F :=
  if op_quad A is Some q then q v else (v^T *m op_mat A *m v) 0 0.

Lemma quad_formE A v : quad_form A v = qf A v.
Proof.
rewrite /quad_form /qf; case: (op_quad A) => // .
rewrite -mulmxA mxE; by apply: eq_bigr => i _; rewrite [v^T _ _]mxE.
Qed.

Lemma fedE A (bs : seq (seq 'cV[F]_N)) : [seq Arr1 [seq qf A v | v <- vs] | vs <- bs] = fed A bs.
Proof. apply: eq_map => vs; congr Arr1; apply: eq_map => v; by rewrite quad_formE. Qed.

(* batch size in effect *)
Definition eff full cb (batch : int) : nat := if full || cb then `|batch|%N else 1%N.
Definition ret_value (t : tret F) : pyval F := match t with TScalar v => v | TPair v _ => v end.

Lemma hutch_some fuel A batch sample c r full cb g out :
  sample_ok sample -> (0 < N)%N -> 0 < batch ->
  hutch fuel A batch sample c r full cb g = Some out ->
  let b := eff full cb batch in
  let est k := est_after r A (batches sample b k g) in
  exists k, [/\ (k < fuel)%N, forall j, (j < k)%N -> call c (mest_view (est j)) = Ok false &
   match out with
   | Err e => call c (mest_view (est k)) = Err e
   | Ok run => call c (mest_view (est k)) = Ok true /\
      run = Run (if full || cb then TPair (mest_estimate (est k)) (EResult (Some (est k)) (PFloat (Fin 0)) 0)
                 else TScalar (mest_estimate (est k)))
             (seen_after cb r A (batches sample b k g)) (flatten (batches sample b k g)) (gen_after sample b k g)
   end].
Proof.
move=> ok N0 b0; rewrite /ModelTrace.hutch [N == 0%N]eqn0Ngt N0 /= /eff.
have hb : (`|batch|)%:Z = batch by rewrite gtz0_abs.
case: ifP => hf.
  rewrite -{1}hb; case E: (while_not _ _ _ _) => [o|//] ho.
  have bp : (0 < `|batch|)%N by rewrite absz_gt0 gt_eqF.
  have [k [hk hj ht]] := loop_some ok bp E.
  exists k; split=> //; case: o ht ho {E} => [s|e] ht [<-] //=; case: ht => -> ->; by [].
case: cb hf => [|_] /=; first by rewrite orbT.
case E: (while_not _ _ _ _) => [o|//] ho.
have [k [hk hj ht]] := loop_some ok (erefl : 0 < 1)%N E.
exists k; split=> //; case: o ht ho {E} => [s|e] ht [<-] //=; case: ht => -> ->; by [].
Qed.

Lemma hutch_stop fuel A batch sample c r full cb g k :
  sample_ok sample -> (0 < N)%N -> 0 < batch ->
  let b := eff full cb batch in
  let est k := est_after r A (batches sample b k g) in
  (k < fuel)%N -> (forall j, (j < k)%N -> call c (mest_view (est j)) = Ok false) ->
  call c (mest_view (est k)) = Ok true ->
  hutch fuel A batch sample c r full cb g = Some (Ok (
    Run (if full || cb then TPair (mest_estimate (est k)) (EResult (Some (est k)) (PFloat (Fin 0)) 0)
         else TScalar (mest_estimate (est k)))
        (seen_after cb r A (batches sample b k g)) (flatten (batches sample b k g)) (gen_after sample b k g))).
Proof.
move=> ok N0 b0 /=; rewrite /ModelTrace.hutch [N == 0%N]eqn0Ngt N0 /= /eff.
have hb : (`|batch|)%:Z = batch by rewrite gtz0_abs.
case: ifP => hf hk hj ht.
  have bp : (0 < `|batch|)%N by rewrite absz_gt0 gt_eqF.
  by rewrite -{1}hb (loop_stop _ ok bp hk hj ht).
case: cb hf => [|_] /=; first by rewrite orbT.
by rewrite (loop_stop _ ok (erefl : 0 < 1)%N hk hj ht).
Qed.

Lemma hutch_none fuel A batch sample c r full cb g :
  sample_ok sample -> (0 < N)%N -> 0 < batch ->
  hutch fuel A batch sample c r full cb g = None ->
  forall k, (k < fuel)%N -> call c (mest_view (est_after r A (batches sample (eff full cb batch) k g))) = Ok false.
Proof.
move=> ok N0 b0; rewrite /ModelTrace.hutch [N == 0%N]eqn0Ngt N0 /= /eff.
have hb : (`|batch|)%:Z = batch by rewrite gtz0_abs.
case: ifP => hf.
  rewrite -{1}hb; case E: (while_not _ _ _ _) => [[s|e]|] // _.
  have bp : (0 < `|batch|)%N by rewrite absz_gt0 gt_eqF.
  exact: (loop_none ok bp E).
case E: (while_not _ _ _ _) => [[s|e]|] // _; exact: (loop_none ok (erefl : 0 < 1)%N E).
Qed.

Lemma eff_gt0 full cb batch : 0 < batch -> (0 < eff full cb batch)%N.
Proof. by rewrite /eff; case: ifP => // _; case: batch => [[]|]. Qed.

Lemma est_estimate r A bs : all (fun vs => 0 < size vs)%N bs ->
  mest_estimate (est_after r A bs) =
  PFloat (if flatten bs is [::] then NaN else Fin (avg [seq qf A v | v <- flatten bs])).
Proof.
move=> h; rewrite /mest_estimate /= /cov_mean /mean_call /= all_rows_fed size_map.
case: (flatten bs) => [|v vs] //=.
rewrite quad_formE /cavg /=; congr (PFloat (Fin (avg (_ :: _)))).
rewrite /col_of -map_comp; apply: eq_map => w /=; exact: quad_formE.
Qed.

(* ---- C21 ------------------------------------------------------------------ *)
Theorem C21_hutch_mean_of_probes fuel A batch sample c r full cb g (out : run) :
  sample_ok sample -> (0 < N)%N -> 0 < batch ->
  hutch fuel A batch sample c r full cb g = Some (Ok out) ->
  ret_value (run_ret out) =
    PFloat (if run_probes out is [::] then NaN else Fin (avg [seq qf A v | v <- run_probes out])) /\
  exists k, run_probes out = flatten (batches sample (eff full cb batch) k g) /\
    forall j, (j <= k)%N -> exists st,
      run_hist (@mest_update F) (mest_init F 1 true r)
        [seq Arr1 [seq qf A v | v <- vs] | vs <- batches sample (eff full cb batch) j g] = Some st /\
      call c (mest_view st) = Ok (j == k).
Proof.
move=> ok N0 b0 /(hutch_some ok N0 b0) /= [k [hk hj [ht ->]]] /=.
have ab := all_batches k g ok (eff_gt0 full cb b0).
split; first by case: ifP => _ /=; rewrite est_estimate.
exists k; split=> // j jk; exists (est_after r A (batches sample (eff full cb batch) j g)); split.
  by rewrite -est_after_run ?fedE //; exact: all_batches (eff_gt0 full cb b0).
by move: jk; rewrite leq_eqVlt => /orP[/eqP -> |jk]; rewrite ?eqxx // hj // ltn_eqF.
Qed.

(* ---- C22 ------------------------------------------------------------------ *)
Lemma count_call_after n r A bs :
  call (CCount F n) (mest_view (est_after r A bs)) = Ok (n <= (size (flatten bs))%:Z).
Proof. by rewrite /= /count_call /= all_rows_fed size_map. Qed.

(* max(n, 0) *)
Definition pos_part (n : int) : nat := if n is Posz k then k else 0%N.

(* number of batches needed to reach n samples *)
Definition nbatch (n : int) (b : nat) : nat := if n <= 0 then 0%N else ((`|n| + b.-1) %/ b)%N.

Lemma nbatchP n b m : (0 < b)%N -> (n <= (m * b)%:Z) = (nbatch n b <= m)%N.
Proof.
move=> b0; rewrite /nbatch; case: ifP => [n0|/negbT]; first by rewrite leq0n (le_trans n0).
rewrite -ltNge => n0; rewrite -ltnS ltn_divLR // mulSn; lia.
Qed.

Theorem C22_count_draws fuel A batch sample n r full cb g :
  sample_ok sample -> (0 < N)%N -> 0 < batch -> (nbatch n (eff full cb batch) < fuel)%N ->
  exists out, hutch fuel A batch sample (CCount F n) r full cb g = Some (Ok out) /\
    [/\ size (run_probes out) = (nbatch n (eff full cb batch) * eff full cb batch)%N,
        n <= (size (run_probes out))%:Z &
        forall m, n <= (m * eff full cb batch)%:Z -> (size (run_probes out) <= m * eff full cb batch)%N].
Proof.
move=> ok N0 b0 hf; have e0 := eff_gt0 full cb b0; eexists; split.
  apply: (hutch_stop ok N0 b0 hf) => [j hj|]; rewrite count_call_after size_flatten_batches // nbatchP //.
    by rewrite leqNgt hj.
  by rewrite leqnn.
rewrite /= size_flatten_batches //; split=> //; first by rewrite nbatchP.
by move=> m; rewrite nbatchP // => h; rewrite leq_mul2r h orbT.
Qed.

(* without full and callback: exactly max(n,0) probes *)
Theorem C22_count_default_mode fuel A batch sample n r g :
  sample_ok sample -> (0 < N)%N -> 0 < batch -> (pos_part n < fuel)%N ->
  exists out, hutch fuel A batch sample (CCount F n) r false false g = Some (Ok out) /\
    size (run_probes out) = pos_part n.
Proof.
move=> ok N0 b0 hf; have [|out [-> [hs _ _]]] := @C22_count_draws fuel A batch sample n r false false g ok N0 b0.
  by rewrite (leq_ltn_trans _ hf) // /nbatch /= addn0 divn1; case: (n) => //= k; case: ifP.
by exists out; split=> //; rewrite hs /nbatch /= addn0 divn1 muln1; case: (n) => // -[|k].
Qed.

(* ---- C23 ------------------------------------------------------------------ *)
Lemma or_count_stops fuel A batch sample n X r full cb g :
  sample_ok sample -> (0 < N)%N -> 0 < batch -> (nbatch n (eff full cb batch) < fuel)%N ->
  (forall k, is_ok (call X (mest_view (est_after r A (batches sample (eff full cb batch) k g))))) ->
  exists out, hutch fuel A batch sample (COr (CCount F n) X) r full cb g = Some (Ok out) /\
    (size (run_probes out) <= nbatch n (eff full cb batch) * eff full cb batch)%N.
Proof.
move=> ok N0 b0 hf hX; have e0 := eff_gt0 full cb b0.
have orE k : exists x, call (COr (CCount F n) X) (mest_view (est_after r A (batches sample (eff full cb batch) k g))) =
   Ok ((nbatch n (eff full cb batch) <= k)%N || x).
  have := hX k; rewrite /=; case: (call X _) => [x|//] _; exists x.
  by rewrite -nbatchP // -(size_flatten_batches _ k g ok) /count_call /= all_rows_fed size_map.
case E: (hutch fuel A batch sample _ r full cb g) => [out|]; last first.
  have := hutch_none ok N0 b0 E hf; have [x ->] := orE (nbatch n (eff full cb batch)).
  by rewrite leqnn.
have /= [k [hk hj ho]] := hutch_some ok N0 b0 E.
have kle : (k <= nbatch n (eff full cb batch))%N.
  rewrite leqNgt; apply/negP => /hj; have [x] := orE (nbatch n (eff full cb batch)).
  by rewrite /= => ->; rewrite leqnn.
case: out E ho => [out|e] E.
  case=> _ eo; exists out; split=> //; rewrite eo /= size_flatten_batches // leq_mul2r kle orbT //.
by have [x /= ->] := orE k.
Qed.

Lemma nbatch_bound n b : (0 < b)%N -> (nbatch n b * b < pos_part n + b)%N.
Proof.
move=> b0; rewrite /nbatch; case: n => [[|n]|n] //=; try by rewrite addn_gt0 b0 orbT.
by have := leq_trunc_div (n.+1 + b.-1) b; lia.
Qed.

Lemma nbatch_small n b : (0 < b)%N -> (nbatch n b <= pos_part n)%N.
Proof. by move=> b0; rewrite -nbatchP //; case: n => [n|n] //=; rewrite lez_nat leq_pmulr. Qed.

Theorem C23_or_count_terminates fuel A batch sample n X r full cb g :
  sample_ok sample -> (0 < N)%N -> 0 < batch -> (pos_part n < fuel)%N ->
  (forall e, is_ok (call X e)) ->
  exists out, hutch fuel A batch sample (COr (CCount F n) X) r full cb g = Some (Ok out) /\
    (size (run_probes out) < pos_part n + eff full cb batch)%N.
Proof.
move=> ok N0 b0 hf hX; have e0 := eff_gt0 full cb b0.
have [|k|out [-> hs]] := @or_count_stops fuel A batch sample n X r full cb g ok N0 b0.
- by rewrite (leq_ltn_trans (nbatch_small n e0)).
- exact: hX.
by exists out; split=> //; apply: leq_ltn_trans (nbatch_bound n e0).
Qed.

Lemma conf_ok q a t r A bs : is_ok (call (CConf q a t) (mest_view (est_after r A bs))).
Proof.
rewrite /= /conf_call /= /conf_error /=; case: ifP => //= h.
rewrite /cov_call /=; case: ifP => // h2.
Qed.

(* the default criterion: at most 200 probes, in full mode fewer than
   200 + batch (so 224 for the default batch of 32) *)
Theorem C23_default_terminates fuel A batch sample r full cb g :
  sample_ok sample -> (0 < N)%N -> 0 < batch -> (200 < fuel)%N ->
  exists out, hutch fuel A batch sample (default_crit F) r full cb g = Some (Ok out) /\
    [/\ ~~ (full || cb) -> (size (run_probes out) <= 200)%N,
        (size (run_probes out) < 200 + eff full cb batch)%N &
        batch = 32 -> (size (run_probes out) <= 224)%N].
Proof.
move=> ok N0 b0 hf; have e0 := eff_gt0 full cb b0.
have [|k|out [-> hs]] := @or_count_stops fuel A batch sample 200 (CConf (19%:R / 20%:R) (Fin 1) (Fin 0)) r full cb g ok N0 b0.
- by rewrite (leq_ltn_trans (nbatch_small 200 e0)).
- exact: conf_ok.
exists out; split=> //.
have hb := nbatch_bound 200 e0.
split.
- by rewrite /eff => /negPf hfc; move: hs; rewrite /eff hfc /= /nbatch /= muln1.
- exact: leq_ltn_trans hb.
- move=> eb; apply: leq_trans hs _; rewrite /eff eb; by case: ifP.
Qed.

(* ---- C24 ------------------------------------------------------------------ *)
Lemma diverge fuel A batch sample c r full cb g :
  sample_ok sample -> (0 < N)%N -> 0 < batch ->
  (forall k, call c (mest_view (est_after r A (batches sample (eff full cb batch) k g))) = Ok false) ->
  hutch fuel A batch sample c r full cb g = None.
Proof.
move=> ok N0 b0 h; case E: (ModelTrace.hutch _ _ _ _ _ _ _ _ _ _ _) => [out|//].
have /= [k [hk hj ho]] := hutch_some ok N0 b0 E.
by case: out ho {E} => [out [e _]|e ho]; [move: e|move: ho]; rewrite h.
Qed.

(* KneeCriterion needs record=True *)
Theorem C24_knee_without_record_diverges fuel A batch sample s full cb g :
  sample_ok sample -> (0 < N)%N -> 0 < batch ->
  hutch fuel A batch sample (CKnee s) false full cb g = None.
Proof. by move=> ok N0 b0; apply: diverge. Qed.

Theorem C24_zero_tolerance_diverges fuel A batch sample o r full cb g :
  sample_ok sample -> (0 < N)%N -> 0 < batch -> o <> OrdStr ->
  hutch fuel A batch sample (CTol (Fin 0) (Fin 0) o) r full cb g = None.
Proof.
move=> ok N0 b0 no; apply: diverge => // k.
have := @C15_zero_tolerances_never F tppf zq o (mest_view (est_after r A (batches sample (eff full cb batch) k g))).
set e := mest_view _.
have : is_ok (call (CTol (Fin 0) (Fin 0) o) e); last by case: (call _ e) => [[]|].
have [x ex] : exists x, ev_delta e = D1 [:: x].
  rewrite /e /= /est_after; case: k {e} => [|k]; first by exists PInf.
  by rewrite batches_rcons /fed map_rcons last_delta_rcons; eexists.
have [y ey] : exists y, ev_estimate e = Ok [:: y].
  rewrite /e /= est_estimate; last exact: all_batches (eff_gt0 full cb b0).
  by eexists.
by rewrite /= /tol_call ex ey /=; case: (o) no => //= _; case: ifP.
Qed.

(* ---- C29 ------------------------------------------------------------------ *)
Definition is_pair (t : tret F) : bool := if t is TPair _ _ then true else false.

Theorem C29_pair_iff_full_or_callback fuel A batch sample c r full cb g (out : run) :
  hutch fuel A batch sample c r full cb g = Some (Ok out) ->
  is_pair (run_ret out) = full || (cb && (0 < N)%N).
Proof.
rewrite /ModelTrace.hutch; case: posnP => [N0|N0].
  by move=> [<-] /=; rewrite andbF orbF; case: ifP.
rewrite andbT.
by case: ifP => _; case: (while_not _ _ _ _) => [[s|e]|] // [<-].
Qed.

(* callback is called once per batch, each time with the estimator as it is
   after that batch -- but with estimate 0.0 and nit 0 *)
Theorem C29_callback_observations fuel A batch sample c r full g (out : run) :
  sample_ok sample -> (0 < N)%N -> 0 < batch ->
  hutch fuel A batch sample c r full true g = Some (Ok out) ->
  (size (run_seen out) * `|batch|)%N = size (run_probes out) /\
  forall i res, nth None [seq Some x | x <- run_seen out] i = Some res ->
    [/\ er_estimate res = PFloat (Fin 0), er_nit res = 0%N &
        exists est, er_estimator res = Some est /\
          run_hist (@mest_update F) (mest_init F 1 true r)
            [seq Arr1 [seq qf A v | v <- vs] | vs <- batches sample `|batch| i.+1 g] = Some est].
Proof.
move=> ok N0 b0 /(hutch_some ok N0 b0) /= [k [hk hj [ht ->]]] /=; rewrite /eff orbT.
have b1 : (0 < `|batch|)%N by rewrite absz_gt0 gt_eqF.
split; first by rewrite size_map size_iota size_batches size_flatten_batches.
have hr i : run_hist (@mest_update F) (mest_init F 1 true r)
            [seq Arr1 [seq qf A v | v <- vs] | vs <- batches sample `|batch| i g] =
            Some (est_after r A (batches sample `|batch| i g)).
  by rewrite fedE est_after_run //; exact: all_batches.
move=> i res; rewrite -map_comp; set s := iota 0 _.
case: (ltnP i (size s)) => hi; last by rewrite nth_default // size_map.
rewrite (nth_map 0%N) // nth_iota ?add0n; last by rewrite /s size_iota in hi.
case=> <- /=; split=> //.
have ik : (i < k)%N by move: hi; rewrite size_iota size_batches.
have tk : forall m k g', (m <= k)%N -> take m (batches sample `|batch| k g') = batches sample `|batch| m g'.
  elim=> [|m IH] [|k'] g' //= le; first by rewrite IH.
by rewrite tk //; eexists; split; last exact: (hr i.+1).
Qed.

Theorem C29_no_callback_no_calls fuel A batch sample c r full g (out : run) :
  sample_ok sample -> (0 < N)%N -> 0 < batch ->
  hutch fuel A batch sample c r full false g = Some (Ok out) -> run_seen out = [::].
Proof. by move=> ok N0 b0 /(hutch_some ok N0 b0) /= [k [hk hj [ht ->]]]. Qed.

(* the claim "the returned result carries the estimate" fails: its estimate
   field is 0.0 in every run *)
Theorem C29_result_estimate_always_zero fuel A batch sample c r full cb g v (res : eresult F (mest F)) (out : run) :
  hutch fuel A batch sample c r full cb g = Some (Ok out) -> run_ret out = TPair v res ->
  er_estimate res = PFloat (Fin 0) /\ er_nit res = 0%N.
Proof.
rewrite /ModelTrace.hutch; case: eqP => [_|_].
  by case=> <- /=; case: ifP => // _ [_ <-].
by case: ifP => _; case: (while_not _ _ _ _) => [[s|e]|] // [<-] //= [_ <-].
Qed.

(* ---- C30 ------------------------------------------------------------------ *)
(* value returned under CountCriterion(n), n >= 1, written out *)
Lemma count_value fuel A batch sample n r full cb g :
  sample_ok sample -> (0 < N)%N -> 0 < batch -> (nbatch n (eff full cb batch) < fuel)%N -> 0 < n ->
  exists out, hutch fuel A batch sample (CCount F n) r full cb g = Some (Ok out) /\
   [/\ run_probes out = flatten (batches sample (eff full cb batch) (nbatch n (eff full cb batch)) g),
       (0 < size (run_probes out))%N &
       ret_value (run_ret out) = PFloat (Fin (avg [seq qf A v | v <- run_probes out]))].
Proof.
move=> ok N0 b0 hf n0; have e0 := eff_gt0 full cb b0; eexists; split.
  apply: (hutch_stop ok N0 b0 hf) => [j hj|]; rewrite count_call_after size_flatten_batches // nbatchP //.
    by rewrite leqNgt hj.
  by rewrite leqnn.
have hs : (0 < size (flatten (batches sample (eff full cb batch) (nbatch n (eff full cb batch)) g)))%N.
  have := nbatchP n (nbatch n (eff full cb batch)) e0; rewrite leqnn size_flatten_batches // => h.
  by rewrite -ltz_nat; apply: lt_le_trans h.
split=> //=; case: ifP => _ /=; rewrite est_estimate ?all_batches //; by case: (flatten _) hs.
Qed.

Definition value_is (o : option (res run)) (x : F) : Prop :=
  exists out, o = Some (Ok out) /\ ret_value (run_ret out) = PFloat (Fin x).

Theorem C30_additive fuel M1 M2 batch sample n r full cb g x1 x2 :
  sample_ok sample -> (0 < N)%N -> 0 < batch -> (nbatch n (eff full cb batch) < fuel)%N -> 0 < n ->
  value_is (hutch fuel (Oper M1 None) batch sample (CCount F n) r full cb g) x1 ->
  value_is (hutch fuel (Oper M2 None) batch sample (CCount F n) r full cb g) x2 ->
  value_is (hutch fuel (Oper (M1 + M2) None) batch sample (CCount F n) r full cb g) (x1 + x2).
Proof.
move=> ok N0 b0 hf n0 [o1 [e1 v1]] [o2 [e2 v2]].
have [o1' [e1' [p1 _ w1]]] := @count_value fuel (Oper M1 None) batch sample n r full cb g ok N0 b0 hf n0.
have [o2' [e2' [p2 _ w2]]] := @count_value fuel (Oper M2 None) batch sample n r full cb g ok N0 b0 hf n0.
have [o3 [e3 [p3 _ w3]]] := @count_value fuel (Oper (M1 + M2) None) batch sample n r full cb g ok N0 b0 hf n0.
move: e1' e2'; rewrite e1 e2 => -[E1] -[E2]; exists o3; split=> //; rewrite w3 p3.
move: w1 w2; rewrite -E1 -E2 v1 v2 E1 E2 p1 p2 => -[->] -[->]; congr (PFloat (Fin _)).
rewrite /avg !big_map !size_map -mulrDl -big_split /=; congr (_ / _); apply: eq_bigr => v _.
by rewrite /qf /= mulmxDr mulmxDl mxE.
Qed.

Theorem C30_homogeneous fuel M batch sample n r full cb g x (c : F) :
  sample_ok sample -> (0 < N)%N -> 0 < batch -> (nbatch n (eff full cb batch) < fuel)%N -> 0 < n ->
  value_is (hutch fuel (Oper M None) batch sample (CCount F n) r full cb g) x ->
  value_is (hutch fuel (Oper (c *: M) None) batch sample (CCount F n) r full cb g) (c * x).
Proof.
move=> ok N0 b0 hf n0 [o1 [e1 v1]].
have [o1' [e1' [p1 _ w1]]] := @count_value fuel (Oper M None) batch sample n r full cb g ok N0 b0 hf n0.
have [o3 [e3 [p3 _ w3]]] := @count_value fuel (Oper (c *: M) None) batch sample n r full cb g ok N0 b0 hf n0.
move: e1'; rewrite e1 => -[E1]; exists o3; split=> //; rewrite w3 p3.
move: w1; rewrite -E1 v1 E1 p1 => -[->]; congr (PFloat (Fin _)).
rewrite /avg !big_map !size_map mulrA big_distrr /=; congr (_ / _); apply: eq_bigr => v _.
by rewrite /qf /= -scalemxAr -scalemxAl mxE.
Qed.

Theorem C30_transpose fuel M batch sample n r full cb g x :
  sample_ok sample -> (0 < N)%N -> 0 < batch -> (nbatch n (eff full cb batch) < fuel)%N -> 0 < n ->
  value_is (hutch fuel (Oper M None) batch sample (CCount F n) r full cb g) x ->
  value_is (hutch fuel (Oper M^T None) batch sample (CCount F n) r full cb g) x.
Proof.
move=> ok N0 b0 hf n0 [o1 [e1 v1]].
have [o1' [e1' [p1 _ w1]]] := @count_value fuel (Oper M None) batch sample n r full cb g ok N0 b0 hf n0.
have [o3 [e3 [p3 _ w3]]] := @count_value fuel (Oper M^T None) batch sample n r full cb g ok N0 b0 hf n0.
move: e1'; rewrite e1 => -[E1]; exists o3; split=> //; rewrite w3 p3.
move: w1; rewrite -E1 v1 E1 p1 => -[->]; congr (PFloat (Fin _)).
rewrite /avg !big_map !size_map; congr (_ / _); apply: eq_bigr => v _.
by rewrite /qf /= -[v^T *m M^T *m v]trmxK mxE !trmx_mul !trmxK mulmxA.
Qed.
End Hutch.

(* ---- C28, C26: probes from isotropic -------------------------------------- *)
Section Probes.
Variable F : rcfType.
Variables (G : Type) (unif : G -> rat * G) (gauss : G -> F * G).
Variables (tppf : F -> nat -> F) (zq : F -> F).
Local Notation iso_fill := (@iso_fill F G unif gauss).

Lemma fill_colsD (T : Type) (d : G -> T * G) n a b g :
  fill_cols d n (a + b) g =
  ((fill_cols d n a g).1 ++ (fill_cols d n b (fill_cols d n a g).2).1,
   (fill_cols d n b (fill_cols d n a g).2).2).
Proof.
elim: a g => [|a IH] g /=; first by case: (fill_cols d n b g).
case: (draws d n g) => c g1; rewrite IH; case: (fill_cols d n a g1) => s g2 /=.
by case: (fill_cols d n b g2).
Qed.

Lemma size_fill_cols (T : Type) (d : G -> T * G) n k g : size (fill_cols d n k g).1 = k.
Proof.
elim: k g => [//|k IH] g /=; case: (draws d n g) => c g1.
by have := IH g1; case: (fill_cols d n k g1) => s g2 /= ->.
Qed.

Theorem C28_columns_split p n a b g :
  iso_fill p n (a + b) g =
  ((iso_fill p n a g).1 ++ (iso_fill p n b (iso_fill p n a g).2).1,
   (iso_fill p n b (iso_fill p n a g).2).2).
Proof.
case: p => /=.
- rewrite fill_colsD; case: (fill_cols unif n a g) => s g1 /=.
  by case: (fill_cols unif n b g1) => s' g2 /=; rewrite map_cat.
- exact: fill_colsD.
- rewrite fill_colsD; case: (fill_cols gauss n a g) => s g1 /=.
  by case: (fill_cols gauss n b g1) => s' g2 /=; rewrite map_cat.
Qed.

Lemma size_iso_fill p n k g : size (iso_fill p n k g).1 = k.
Proof.
case: p => /=; [have := size_fill_cols unif n k g|exact: size_fill_cols|have := size_fill_cols gauss n k g];
  by case: (fill_cols _ n k g) => s g1 /=; rewrite size_map.
Qed.

Lemma iso_fill0 p n g : iso_fill p n 0 g = ([::], g).
Proof. by case: p. Qed.

Variable N : nat.
Definition iso_sampler p : sampler F G N := mk_sampler N (iso_fill p).

Lemma iso_sample_ok p : sample_ok (iso_sampler p).
Proof.
move=> b g; rewrite /iso_sampler /mk_sampler.
by have := size_iso_fill p N b g; case: (iso_fill p N b g) => cs g' /= <-; rewrite size_map.
Qed.

Lemma iso_batches p b k g :
  flatten (batches (iso_sampler p) b k g) = (iso_sampler p (k * b)%N g).1 /\
  gen_after (iso_sampler p) b k g = (iso_sampler p (k * b)%N g).2.
Proof.
elim: k g => [|k IH] g /=; first by rewrite /iso_sampler /mk_sampler mul0n iso_fill0.
have [-> ->] := IH (iso_sampler p b g).2.
rewrite /iso_sampler /mk_sampler mulSn C28_columns_split.
case: (iso_fill p N b g) => s g1 /=; case: (iso_fill p N (k * b)%N g1) => s' g2 /=.
by rewrite /to_cols map_cat.
Qed.

(* the probes of a run are what one request for all of them would have given *)
Theorem C28_probes_independent_of_batching p fuel A batch c r full cb g (out : run F G N) :
  (0 < N)%N -> 0 < batch ->
  hutch tppf zq fuel A batch (iso_sampler p) c r full cb g = Some (Ok out) ->
  iso_sampler p (size (run_probes out)) g = (run_probes out, run_gen out).
Proof.
move=> N0 b0 /(hutch_some (@iso_sample_ok p) N0 b0) /= [k [hk hj [ht ->]]] /=.
have [-> ->] := iso_batches p (eff full cb batch) k g.
by rewrite iso_sample_ok; case: (iso_sampler p _ g).
Qed.

(* two runs, whatever their options, share the shorter one's probes *)
Theorem C28_runs_share_probes p fuel A batch c r full cb fuel' A' batch' c' r' full' cb' g
    (out out' : run F G N) :
  (0 < N)%N -> 0 < batch -> 0 < batch' ->
  hutch tppf zq fuel A batch (iso_sampler p) c r full cb g = Some (Ok out) ->
  hutch tppf zq fuel' A' batch' (iso_sampler p) c' r' full' cb' g = Some (Ok out') ->
  (size (run_probes out) <= size (run_probes out'))%N ->
  run_probes out = take (size (run_probes out)) (run_probes out').
Proof.
move=> N0 b0 b0' h h' le.
have e := C28_probes_independent_of_batching N0 b0 h.
have e' := C28_probes_independent_of_batching N0 b0' h'.
move: e'; rewrite -(subnKC le) /iso_sampler /mk_sampler C28_columns_split.
move: e; rewrite /iso_sampler /mk_sampler; set m := size (run_probes out).
have := size_iso_fill p N m g.
case: (iso_fill p N m g) => s g1 /= hs [ep _]; case: (iso_fill _ N _ g1) => s' g2 /= [<- _].
by rewrite -{1}ep /to_cols map_cat takel_cat ?size_map ?hs // take_oversize // size_map hs.
Qed.

(* ---- C26 ------------------------------------------------------------------ *)
Lemma floorq_unit (x : rat) (n : int) : n%:~R <= x < (n + 1)%:~R -> floorq x = n%:~R.
Proof.
move=> /andP[h1 h2]; rewrite /floorq; congr (_%:~R); apply/eqP.
have d0 : 0 < denq x by exact: denq_gt0.
have d0' : (0 : rat) < (denq x)%:~R by rewrite ltr0z.
have ex : x = (numq x)%:~R / (denq x)%:~R by rewrite divq_num_den.
move: h1 h2; rewrite {1 2}ex ler_pdivl_mulr // ltr_pdivr_mulr // -!intrM ler_int ltr_int => h1 h2.
rewrite eq_le; apply/andP; split; last by rewrite lez_divRL.
by rewrite -ltz_addr1 ltz_divLR.
Qed.

Lemma rademacher_pm1 (x : rat) : 0 <= x < 1 -> rademacher_entry x = if x < 1 / 2%:R then -1 else 1.
Proof.
move=> /andP[h0 h1]; rewrite /rademacher_entry; case: ifP => [h|/negbT].
  have -> : floorq (x * 2%:R) = 0%:~R; last by rewrite mul0r sub0r.
  apply: floorq_unit; rewrite add0r /= mulr_ge0 //=.
  by rewrite -ltr_pdivl_mulr.
rewrite -leNgt => h.
have -> : floorq (x * 2%:R) = 1%:~R.
  apply: floorq_unit; rewrite -ler_pdivr_mulr // h /=.
  by rewrite -ltr_pdivl_mulr.
by rewrite mul1r -[1]/(1%:R) -[2%:R]/((1+1)%:R) natrD addrK.
Qed.

Hypothesis unifP : forall g, 0 <= (unif g).1 < 1.

Lemma draws_unif n g x : x \in (draws unif n g).1 -> 0 <= x < 1.
Proof.
elim: n g => [//|n IH] g /=; have := unifP g; case: (unif g) => y g1 /= hy.
have := IH g1; case: (draws unif n g1) => s g2 /= h.
by rewrite inE => /orP[/eqP -> //|/h].
Qed.

Lemma size_draws (T : Type) (d : G -> T * G) n g : size (draws d n g).1 = n.
Proof.
elim: n g => [//|n IH] g /=; case: (d g) => y g1.
by have := IH g1; case: (draws d n g1) => s g2 /= ->.
Qed.

Lemma rademacher_col n k g c : c \in (iso_fill Rademacher n k g).1 ->
  size c = n /\ forall i, (i < n)%N -> c`_i = 1 \/ c`_i = -1.
Proof.
rewrite /=; have : forall c0, c0 \in (fill_cols unif n k g).1 -> size c0 = n /\ (forall x, x \in c0 -> 0 <= x < 1).
  elim: k g => [//|k IH] g c0 /=.
  have hd := @draws_unif n g; have hs := size_draws unif n g.
  case: (draws unif n g) hd hs => c1 g1 /= hd hs.
  have := IH g1 c0; case: (fill_cols unif n k g1) => s g2 /= h.
  by rewrite inE => /orP[/eqP -> //|/h].
case: (fill_cols unif n k g) => cs g1 /= h /mapP[c0 /h [hs hx] ->].
split=> [|i hi]; first by rewrite size_map.
rewrite (nth_map 0) ?hs //; have /hx /rademacher_pm1 -> : c0`_i \in c0 by rewrite mem_nth // hs.
by case: ifP => _; rewrite ?rmorphN ?rmorph1; [right|left].
Qed.

Lemma rademacher_probe k g v : v \in (iso_sampler Rademacher k g).1 -> forall i, v i 0 = 1 \/ v i 0 = -1.
Proof.
rewrite /iso_sampler /mk_sampler; have := @rademacher_col N k g.
case: (iso_fill Rademacher N k g) => cs g' /= h /mapP[c /h [_ hc] ->] i.
by rewrite mxE; exact: hc.
Qed.

(* every sample is the trace, so is every (non-NaN) result, for every seed and
   criterion; quad attribute absent *)
Theorem C26_diagonal_exact fuel (d : 'rV[F]_N) batch c r full cb g (out : run F G N) :
  (0 < N)%N -> 0 < batch ->
  hutch tppf zq fuel (Oper (diag_mx d) None) batch (iso_sampler Rademacher) c r full cb g = Some (Ok out) ->
  (forall v, v \in run_probes out -> (v^T *m diag_mx d *m v) 0 0 = \sum_i d 0 i) /\
  ret_value (run_ret out) = PFloat (if run_probes out is [::] then NaN else Fin (\tr (diag_mx d))).
Proof.
move=> N0 b0 h; have e := C28_probes_independent_of_batching N0 b0 h.
have [-> _] := C21_hutch_mean_of_probes (@iso_sample_ok Rademacher) N0 b0 h.
have hv v : v \in run_probes out -> (v^T *m diag_mx d *m v) 0 0 = \sum_i d 0 i.
  have := @rademacher_probe (size (run_probes out)) g v; rewrite e => hv /hv {}hv.
  rewrite mxE; apply: eq_bigr => i _; rewrite mul_mx_diag mxE mxE.
  by case: (hv i) => ->; rewrite ?mulrN1 ?mulNr ?opprK ?mul1r ?mulr1.
split=> //; case: (run_probes out) hv => [//|v vs] hv; congr (PFloat (Fin _)).
rewrite /avg (eq_big_seq (fun _ => \sum_i d 0 i)) ?big_map; last first.
  by move=> y /mapP[w hw ->]; rewrite /qf /= hv.
rewrite big_const_seq count_predT iter_addr_0 size_map mxtrace_diag -[_ *+ size _]mulr_natr mulfK //.
by rewrite pnatr_eq0.
Qed.
End Probes.

(* 0 x 0 operator: 0.0, nothing drawn, generator untouched, no criterion call *)
Theorem C26_empty_operator (F : rcfType) (G : Type) tppf zq fuel (A : oper F 0) batch sample c r full cb (g : G) :
  exists out : run F G 0, hutch tppf zq fuel A batch sample c r full cb g = Some (Ok out) /\
    [/\ ret_value (run_ret out) = PFloat (Fin 0), run_probes out = [::], run_gen out = g & run_seen out = [::]].
Proof. by eexists; split; [reflexivity|split=> //=; case: ifP]. Qed.

(* ---- a concrete run ------------------------------------------------------- *)
(* 2 x 2, alternating uniform draws 1/4, 3/4, ...: the first probe is (-1, 1),
   the second one too; A = [[1,2],[3,4]] gives the sample 1 - 2 - 3 + 4 = 0 *)
Section Example.
Variable F : rcfType.
Definition altu (n : nat) : rat * nat := ((if odd n then 3%:R / 4%:R else 1 / 4%:R), n.+1).
Definition zg (n : nat) : F * nat := (0, n).
Definition exM : 'M[F]_2 := \matrix_(i, j) (2 * i + j + 1)%:R.
Definition exS : sampler F nat 2 := iso_sampler altu zg 2 Rademacher.
Definition exV : 'cV[F]_2 := \col_i (if i == 0 then -1 else 1).

Example altu_unit g : 0 <= (altu g).1 < 1.
Proof. by rewrite /altu; case: odd. Qed.
Example exS_ok : sample_ok exS.
Proof. exact: iso_sample_ok. Qed.

Lemma altu_col n : ~~ odd n ->
  iso_fill altu zg Rademacher 2 1 n = ([:: [:: -1; 1 : F]], n.+2).
Proof.
move=> h; rewrite /iso_fill /= h /= (negPf h) /=.
rewrite !rademacher_pm1 //= ; congr ([:: [:: _; _]], _).
  by rewrite rmorphN rmorph1.
by rewrite rmorph1.
Qed.

Lemma exS_draw n : ~~ odd n -> exS 1%N n = ([:: exV], n.+2).
Proof.
move=> h; rewrite /exS /iso_sampler /mk_sampler altu_col //=; congr ([:: _], _).
by apply/matrixP => i j; rewrite !mxE; case: i => -[|[|]].
Qed.

Lemma exM_sample : qf (Oper exM None) exV = 0.
Proof.
rewrite /qf /= mxE !big_ord_recl big_ord0 !mxE !big_ord_recl !big_ord0 !mxE /=.
by rewrite /bump /= !muln0 !muln1 !add0n !addn1; ring.
Qed.

Example hutch_concrete (tppf : F -> nat -> F) (zq : F -> F) :
  exists out, hutch tppf zq 3 (Oper exM None) 1 exS (CCount F 2) false false false 0%N = Some (Ok out) /\
   run_probes out = [:: exV; exV] /\ ret_value (run_ret out) = PFloat (Fin 0).
Proof.
have [//|//|//|//|out [e [hp _ hv]]] := @count_value F nat tppf zq 2 3 (Oper exM None) 1 exS 2 false false false 0%N exS_ok.
exists out; rewrite e; split=> //.
have ep : run_probes out = [:: exV; exV].
  rewrite hp.
  rewrite -[flatten _]/((exS 1%N 0%N).1 ++ (exS 1%N (exS 1%N 0%N).2).1 ++ [::]).
  by rewrite (exS_draw (erefl : ~~ odd 0)) [(_, _).2]/= (exS_draw (erefl : ~~ odd 2)).
rewrite hv ep /avg !big_cons !big_nil !exM_sample; split=> //.
by rewrite !addr0 mul0r.
Qed.

(* the same tape and a diagonal operator *)
Example hutch_diagonal_concrete (tppf : F -> nat -> F) (zq : F -> F) :
  exists out, hutch tppf zq 3 (Oper (diag_mx (\row_j (j + 1)%:R)) None) 1 exS (CCount F 2) false false false 0%N
      = Some (Ok out) /\ ret_value (run_ret out) = PFloat (Fin 3%:R).
Proof.
have [//|//|//|//|out [e [hp hs hv]]] := @count_value F nat tppf zq 2 3 (Oper (diag_mx (\row_j (j + 1)%:R)) None) 1 exS 2 false false false 0%N exS_ok.
exists out; rewrite e; split=> //.
have [||_ ->] := C26_diagonal_exact altu_unit _ _ e => //.
case: (run_probes out) hs => // v vs _; congr (PFloat (Fin _)).
by rewrite mxtrace_diag !big_ord_recl big_ord0 !mxE addr0 -natrD.
Qed.

(* a criterion that never stops *)
Example hutch_knee_concrete (tppf : F -> nat -> F) (zq : F -> F) fuel :
  hutch tppf zq fuel (Oper exM None) 1 exS (CKnee 1) false false false 0%N = None.
Proof. by apply: C24_knee_without_record_diverges => //; exact: exS_ok. Qed.
End Example.

Print Assumptions C21_hutch_mean_of_probes.
Print Assumptions C22_count_draws.
Print Assumptions C22_count_default_mode.
Print Assumptions C23_or_count_terminates.
Print Assumptions C23_default_terminates.
Print Assumptions C24_knee_without_record_diverges.
Print Assumptions C24_zero_tolerance_diverges.
Print Assumptions C29_pair_iff_full_or_callback.
Print Assumptions C29_callback_observations.
Print Assumptions C29_no_callback_no_calls.
Print Assumptions C29_result_estimate_always_zero.
Print Assumptions C30_additive.
Print Assumptions C30_homogeneous.
Print Assumptions C30_transpose.
Print Assumptions C28_columns_split.
Print Assumptions C28_probes_independent_of_batching.
Print Assumptions C28_runs_share_probes.
Print Assumptions C26_diagonal_exact.
Print Assumptions C26_empty_operator.
