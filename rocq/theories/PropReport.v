(* C89, C90: what the library reports -- criterion messages and plotted data. *)
From mathcomp Require Import all_ssreflect all_algebra zify ring.
From Verif Require Import Base Spec ModelStats LemStats PropStats.
From Verif Require Import ModelEstimators LemEstimators LemEst2 PropEstimators ModelReport.
From Coq Require Import String.
Set Implicit Arguments.
Unset Strict Implicit.
Unset Printing Implicit Defensive.
Import Order.TTheory GRing.Theory Num.Theory.
Local Open Scope ring_scope.

Section Messages.
Variable F : rcfType.
Variable tppf : F -> nat -> F.
Variable zq : F -> F.
Implicit Types (h : seq (arr F)).
Local Notation msg := (crit_message tppf zq).

(* the numbers a message shows, in order; counts as integers *)
Inductive shown : Type := ShNum of xnum F | ShCount of nat.
Fixpoint numbers (m : seq (tok F)) : seq shown :=
  match m with
  | [::] => [::]
  | TNum _ x :: m' => ShNum x :: numbers m'
  | TCount n :: m' => ShCount n :: numbers m'
  | TArr s :: m' => cat (map ShNum s) (numbers m')
  | _ :: m' => numbers m'
  end.

(* the estimator hutch uses, after any history of non-empty batches *)
Definition reached r h st : Prop :=
  nonempty_hist h /\ run_hist (@mest_update F) (mest_init F 1 true r) h = Some st.

Definition mvalue h : xnum F := if h is [::] then NaN else Fin (avg (col_of (all_rows h) 0)).

Lemma reached_est r h st : reached r h st ->
  ev_estimate (mest_view st) = Ok [:: mvalue h] /\ ev_len (mest_view st) = size (all_rows h).
Proof.
move=> [hh hr]; have [_ el ee _] := C08_estimator_history hh hr; split=> //.
rewrite /mest_view /= ee /mvalue.
by case: (h).
Qed.

(* never raises on hutch's own estimator, except for the orders that
   np.linalg.norm itself rejects for vectors *)
Theorem C89_message_total r h st (c : crit F) :
  reached r h st -> (forall a b, c <> CTol a b OrdStr) ->
  exists m, msg c (mest_view st) = Ok m.
Proof.
move=> rh nostr; have [ee el] := reached_est rh.
case: c nostr => [n|rt a o|q a rt|s|f|c1 c2|c1 c2|c1] nostr /=;
  try by rewrite ?/count_message ?/knee_message ?ee /=; eexists.
- rewrite /tol_message ee /=.
  have nb (l : seq (xnum F)) : (0 < size l)%N -> exists v, norm1d o l = Ok v :> res (xnum F).
    case: l => // x l _; case: o nostr => nostr /=; try by eexists.
    by have := nostr rt a.
  have [gh est] := run_form rh.1 rh.2.
  have [v ->] : exists v, norm1d o (ms_delta st) = Ok v.
    apply: nb; rewrite est /=.
    elim/last_ind: (h) => [|h' x _] //; by rewrite last_delta_rcons.
  by have [w /= ->] := nb [:: mvalue h] isT; eexists.
- rewrite /conf_message ee /=.
  have [h3|h3] := ltnP (size (all_rows h)) 3.
    rewrite /conf_error; have -> : ev_nsamples (mest_view st) = size (all_rows h).
      by have [] := C08_estimator_history rh.1 rh.2.
    by rewrite h3; eexists.
  by rewrite (conf_error_dim1 _ _ _ rh.1 rh.2) ?size_map //; eexists.
Qed.

(* the numbers shown are the sample mean, its margin and the number of samples *)
Theorem C89_confidence_message r h st (conf : F) a rt :
  reached r h st ->
  let xs := col_of (all_rows h) 0 in
  exists2 m, msg (CConf conf a rt) (mest_view st) = Ok m
  & numbers m =
    [:: ShNum (mvalue h);
        ShNum (if (size xs < 3)%N then PInf
               else Fin ((if (size xs < 30)%N then tppf ((conf + 1) / 2%:R) (size xs).+1
                          else zq conf) * std_err xs));
        ShNum (Fin (conf * 100%:R)); ShCount (size xs)].
Proof.
move=> rh xs; have [ee el] := reached_est rh.
have sx : size xs = size (all_rows h) by rewrite size_map.
rewrite /= /conf_message ee /= sx.
case: ltnP => h3.
  rewrite /conf_error; have -> : ev_nsamples (mest_view st) = size (all_rows h).
    by have [] := C08_estimator_history rh.1 rh.2.
  by rewrite h3; eexists; first by []; rewrite /= -el.
rewrite (conf_error_dim1 _ _ _ rh.1 rh.2) -/xs ?sx //.
by eexists; first by []; rewrite /= -el /conf_score.
Qed.

Theorem C89_count_knee_message r h st n (s : F) :
  reached r h st ->
  (exists2 m, msg (CCount F n) (mest_view st) = Ok m
            & numbers m = [:: ShNum (mvalue h); ShCount (size (all_rows h))]) /\
  (exists2 m, msg (CKnee s) (mest_view st) = Ok m
            & numbers m = [:: ShNum (mvalue h); ShCount (size (all_rows h)); ShNum (Fin s)]).
Proof.
move=> rh; have [ee el] := reached_est rh.
rewrite /= /count_message /knee_message ee /=.
by split; (eexists; first by []); rewrite /= -el.
Qed.

Theorem C89_tolerance_message r h x st (rt a : F) o N :
  reached r (rcons h x) st -> spec_norm F o = Some N ->
  let mu := avg (col_of (all_rows (rcons h x)) 0) in
  let old := if h is [::] then 0 else avg (col_of (all_rows h) 0) in
  exists2 m, msg (CTol (Fin rt) (Fin a) o) (mest_view st) = Ok m
  & numbers m = [:: ShNum (Fin mu); ShNum (Fin a); ShNum (Fin rt);
                    ShCount (size (all_rows (rcons h x)));
                    ShNum (Fin (N [:: mu - old])); ShNum (Fin (N [:: mu]))].
Proof.
move=> rh hN mu old; have [ee el] := reached_est rh.
have em : mvalue (rcons h x) = Fin mu by rewrite /mvalue /mu; case: (h).
rewrite em in ee.
rewrite /= /tol_message ee /=.
have := C08_delta_history rh.1 rh.2 => /= ed.
rewrite ed (norm1d_spec (fun i => cavg (all_rows (rcons h x)) i - (if h is [::] then 0 else cavg (all_rows h) i)) hN (ltnSn 0)).
rewrite /= (norm1d_spec (fun=> mu) hN (ltnSn 0)) /=.
by eexists; first by []; rewrite /= -el.
Qed.

(* Whatever is reached, hutch's default criterion -- and every composite --
   reports no number at all. *)
Theorem C89_default_message_refuted (e : eview F) :
  exists2 m, msg (default_crit F) e = Ok m & numbers m = [::].
Proof. by eexists. Qed.

(* no covariance, or vectors: the message of the confidence criterion works
   below three samples and raises from then on *)
Theorem C89_confidence_message_raises d c r h st (conf : F) a rt :
  (0 < d)%N -> (c = false \/ (1 < d)%N) -> nonempty_hist h ->
  run_hist (@mest_update F) (mest_init F d c r) h = Some st ->
  if (size (all_rows h) < 3)%N then exists m, msg (CConf conf a rt) (mest_view st) = Ok m
  else msg (CConf conf a rt) (mest_view st) = Err (if c then TypeError else AttributeError).
Proof.
move=> d0 hc hh hr; have [gh ->] := run_form hh hr.
rewrite /= /conf_message /conf_error /=.
case: ltnP => h3; first by eexists.
case: c hc {hr} => hc //=.
case: hc => // d1; rewrite cov_call_of //.
exact: leq_trans h3.
Qed.

(* a fresh ControlVariableEstimator: calling the tolerance criterion raises,
   asking it for a message does not *)
Theorem C89_control_variate_message (ecv : seq F) r st0 (rt a : xnum F) :
  cv_init ecv None r = Ok st0 ->
  crit_call tppf zq (CTol rt a (Ord2)) (cv_view st0) = Err ValueError /\
  exists m, msg (CTol rt a (Ord2)) (cv_view st0) = Ok m.
Proof. by move=> -[<-]; split=> //=; eexists. Qed.

(* long estimates: only the first two and the last entry are shown *)
Theorem C89_long_estimate (x : seq (xnum F)) : (3 < size x)%N ->
  numbers (arr_summary x) = [:: ShNum (nth NaN x 0); ShNum (nth NaN x 1); ShNum (nth NaN x (size x).-1)].
Proof.
case: x => [|a [|b [|c [|d x]]]] // _; rewrite /arr_summary /=.
by congr [:: _; _; ShNum _]; rewrite (last_nth NaN).
Qed.

End Messages.

Section Plots.
Variable F : rcfType.
Variable tppf : F -> nat -> F.
Variable zq : F -> F.
Implicit Types (s : seq (option F)) (a : plotarg F).

(* the samples a caller hands over: every recorded sample, or the sequence *)
Definition given a s : Prop :=
  match a with PEst (Some vs) => s = flatten vs | PEst None => False | PSeq t => s = t end.
(* the numbers among them, in order *)
Definition finite_samples s : seq F := pmap id s.

Lemma plot_given a s : given a s -> plot_samples a = Ok s.
Proof. by case: a => [[vs|]|t] //= ->. Qed.

Lemma sum_take (v : seq F) i : (i < size v)%N ->
  (np_cumsum v)`_i / i.+1%:R = avg (take i.+1 v).
Proof.
move=> hi; rewrite /np_cumsum nth_mkseq // /avg size_takel //; congr (_ / _).
rewrite [RHS](big_nth 0) size_takel // big_mkord; apply: eq_bigr => j _.
by rewrite nth_take.
Qed.

(* the running average of figure_sequence and figure_error *)
Theorem C90_running_average a s mu :
  given a s ->
  let v := finite_samples s in
  exists2 f, figure_sequence a mu = Ok f &
  [/\ fs_lx f = iota 1 (size v), size (fs_ly f) = size v, fs_span f = mu
    & forall i, (i < size v)%N -> (fs_ly f)`_i = avg (take i.+1 v)].
Proof.
move=> ga v; rewrite /figure_sequence (plot_given ga); eexists; first by [].
split=> //=; first by rewrite size_mkseq.
by move=> i hi; rewrite nth_mkseq // sum_take.
Qed.

(* the sample points have matching coordinates exactly if no sample is NaN *)
Theorem C90_points_match a s mu f :
  given a s -> figure_sequence a mu = Ok f ->
  (size (fs_px f) = size (fs_py f)) <-> (None \notin s).
Proof.
move=> ga; rewrite /figure_sequence (plot_given ga) => -[<-] /=.
rewrite size_iota /valid_of size_pmap.
split.
  move=> hs; apply/negP => hn.
  have : all (fun o : option F => o) s by rewrite all_count; apply/eqP.
  by move/allP/(_ _ hn).
move=> hn; apply/eqP; rewrite -all_count; apply/allP => -[x|] hx //.
by rewrite hx in hn.
Qed.

(* passing an estimator that did not record: TypeError, never the helpful
   assertion *)
Theorem C90_not_recorded mu thr ab :
  figure_sequence (PEst None) mu = Err TypeError /\
  figure_error tppf zq (PEst None) mu thr ab = Err TypeError.
Proof. by []. Qed.

(* comparing with a known value always fails *)
Theorem C90_true_error_refuted a s (mu : F) thr ab :
  given a s -> figure_error tppf zq a (Some mu) thr ab = Err UnboundLocalError.
Proof. by move=> ga; rewrite /figure_error (plot_given ga). Qed.

(* what the curve is, sample by sample *)
Definition moe (xs : seq F) : xnum F :=
  if (size xs < 3)%N then PInf
  else Fin ((if (size xs < 30)%N then tppf ((19%:R / 20%:R + 1) / 2%:R) (size xs).+1
             else zq (19%:R / 20%:R)) * std_err xs).
Definition rel_err (xs : seq F) : xnum F :=
  if (size xs < 3)%N then PInf else xabs (xdiv (Fin (std_err xs)) (Fin (avg xs))).

Definition hist1 (xs : seq F) : seq (arr F) := [seq Arr0 x | x <- xs].

Lemma hist1_ok xs : nonempty_hist (hist1 xs) /\ col_of (all_rows (hist1 xs)) 0 = xs /\
  all (fun x => cols_of x == 1%N) (hist1 xs).
Proof.
rewrite /hist1 /nonempty_hist all_map /all_rows -map_comp all_map.
split; [exact/allP | split; last exact/allP].
by elim: xs => //= x xs IH; rewrite /col_of /= in IH *; rewrite IH.
Qed.

Lemma run_hist_rcons (S X : Type) (f : S -> X -> effect S) st h x :
  run_hist f st (rcons h x) =
  if run_hist f st h is Some st' then (if f st' x is (st'', None) then Some st'' else None) else None.
Proof.
elim: h st => [|y h IH] st /=; first by case: (f st x) => st' [].
by case: (f st y) => st' [] //.
Qed.

Lemma error_loop_spec ab (v pre : seq F) est :
  run_hist (@mest_update F) (mest_init F 1 true false) (hist1 pre) = Some est ->
  exists2 r, error_loop tppf zq ab est v = Ok r &
  size r = size v /\
  forall i, (i < size v)%N ->
    nth NaN r i = (if ab then moe else rel_err) (pre ++ take i.+1 v).
Proof.
elim: v pre est => [|x v IH] pre est hr; first by exists [::].
have hp := hist1_ok (rcons pre x).
have [est' he] : exists est', run_hist (@mest_update F) (mest_init F 1 true false) (hist1 (rcons pre x)) = Some est'.
  have := C08_histories_succeed (d := 1%N) (c := true) (r := false) hp.1 hp.2.2.
  by case: run_hist => // e _; exists e.
have hu : mest_update est (Arr0 x) = (est', None).
  move: he; rewrite /hist1 map_rcons run_hist_rcons -/(hist1 pre) hr.
  by case: mest_update => e [] // [->].
have [r hr' [sr nr]] := IH _ _ he.
have [me hme eme] : exists2 me, conf_error tppf zq (19%:R / 20%:R) (mest_view est') = Ok me
    & (if ab then me.1 else me.2) = (if ab then moe else rel_err) (rcons pre x).
  have ec := hp.2.1.
  have sz : size (all_rows (hist1 (rcons pre x))) = size (rcons pre x) by rewrite -[RHS](congr1 size ec) size_map.
  case: (ltnP (size (rcons pre x)) 3) => h3.
    exists (PInf, PInf); last by case: (ab); rewrite /moe /rel_err h3.
    rewrite /conf_error; have -> : ev_nsamples (mest_view est') = size (rcons pre x).
      by rewrite -sz; have [] := C08_estimator_history hp.1 he.
    by rewrite h3.
  have := conf_error_dim1 tppf zq (19%:R / 20%:R) hp.1 he; rewrite ec => /(_ h3) ->.
  eexists; first by [].
  by case: (ab); rewrite /moe /rel_err ltnNge h3.
rewrite /= hu /= hme /= hr' /=; eexists; first by [].
split; first by rewrite /= sr.
case=> [|i] hi /=; first by rewrite take0 eme cats1.
by rewrite nr // cat_rcons.
Qed.

Theorem C90_error_curve a s thr ab :
  given a s ->
  let v := finite_samples s in
  if (thr != None) && (size v == 0%N) then figure_error tppf zq a None thr ab = Err IndexError
  else exists2 f, figure_error tppf zq a None thr ab = Ok f &
  [/\ fe_x f = iota 1 (size v), size (fe_y f) = size v,
      fe_thr f = omap (fun t => (size v, t)) thr
    & forall i, (i < size v)%N ->
        nth NaN (fe_y f) i = (if ab then moe else rel_err) (take i.+1 v)].
Proof.
move=> ga v; rewrite /figure_error (plot_given ga) /=.
have [r -> [sr nr]] := @error_loop_spec ab v [::] _ erefl.
rewrite -/v /sample_index -/(finite_samples s) -/v /=.
case: thr => [t|] /=; last first.
  by eexists; first by []; split.
case: ifP => [/eqP v0|v0]; first by rewrite v0.
case ev: (size v) v0 => [|n] // _ /=.
eexists; first by []; split=> //=; first by rewrite sr.
  congr (Some (_, _)).
  have lst m k : last k (iota k.+1 m) = (k + m)%N.
    by elim: m k => [|m IH] k /=; [rewrite addn0 | rewrite IH addSnnS].
  by rewrite lst.
by rewrite -ev.
Qed.

(* ---- the cumulative spectral density ---------------------------------------- *)
(* value at t of a step curve drawn with step_mode="before" (bokeh's default):
   the ordinate of the first corner at or after t *)
Definition step_before (xs ys : seq F) (t : F) : F := ys`_(find (fun x => t <= x) xs).

Theorem C90_csm (values : seq F) (t : F) :
  values != [::] -> sorted <=%R values -> {in values, forall x, x <= 1} ->
  head 0 values <= t -> t <= 1 -> t \notin values ->
  exists2 c, figure_csm values = Ok c &
  step_before c.1 c.2 t = (count (fun x => x <= t) values)%:R / (size values)%:R.
Proof.
move: values => vals nv srt le1 hmin t1 tn.
exists (rcons vals 1, rcons [seq (searchsorted vals x)%:R * (1 / (size vals)%:R) | x <- vals] 1).
  by case: (vals) nv.
rewrite /step_before [_.1]/= [_.2]/=.
set i := find _ _.
have mono j k : (j <= k)%N -> (k < size vals)%N -> vals`_j <= vals`_k.
  move=> jk hk; apply: (sorted_leq_nth (@le_trans _ _) (@lexx _ _)) => //; rewrite inE //.
  exact: leq_ltn_trans jk hk.
have hi : i = find (fun x => t <= x) vals.
  rewrite /i -cats1 find_cat.
  case: (boolP (has _ _)) => // /hasNfind ->.
  by rewrite /= t1 addn0.
have ile : (i <= size vals)%N by rewrite hi find_size.
have cnt : count (fun x => x <= t) vals = i.
  rewrite -(cat_take_drop i vals) count_cat.
  have -> : count (fun x => x <= t) (take i vals) = i.
    rewrite -[RHS](size_takel ile); apply/eqP; rewrite -all_count; apply/(all_nthP 0) => j.
    rewrite size_takel // => hj; rewrite nth_take //.
    by have := @before_find _ 0 (fun x => t <= x) vals j; rewrite -hi => /(_ hj) /negbT; rewrite -ltNge => /ltW.
  have -> : count (fun x => x <= t) (drop i vals) = 0%N; last by rewrite addn0.
  apply/eqP; rewrite -leqn0 leqNgt -has_count -all_predC; apply/(all_nthP 0) => j.
  rewrite size_drop nth_drop => hj.
  have hij : (i + j < size vals)%N by rewrite -ltn_subRL.
  rewrite /=.
  rewrite -ltNge lt_neqAle; apply/andP; split.
    by apply: contraNneq tn => ->; rewrite mem_nth.
  have hh : has (fun x => t <= x) vals by rewrite has_find -hi; apply: leq_ltn_trans hij; apply: leq_addr.
  by apply: le_trans (nth_find 0 hh) _; rewrite -hi mono // leq_addr.
rewrite cnt.
rewrite nth_rcons size_map; case: ltnP => h.
  rewrite (nth_map 0) // mulrA mulr1; congr (_%:R / _).
  have hh : has (fun x => t <= x) vals by rewrite has_find -hi.
  have ti : t <= vals`_i by rewrite hi (nth_find 0 hh).
  have hs : has (fun y => vals`_i <= y) vals by apply/hasP; exists vals`_i; rewrite ?mem_nth.
  apply/eqP; rewrite eqn_leq /searchsorted; apply/andP; split.
    rewrite leqNgt; apply/negP => lt.
    by have := @before_find _ 0 (fun y => vals`_i <= y) vals i lt; rewrite lexx.
  rewrite {1}hi leqNgt; apply/negP => lt.
  have := @before_find _ 0 (fun x => t <= x) vals _ lt.
  by rewrite (le_trans ti (nth_find 0 hs)).
have -> : i = size vals by apply/eqP; rewrite eqn_leq ile h.
by rewrite eqxx divff // pnatr_eq0 size_eq0.
Qed.

(* a spectrum that exceeds 1: the corners go backwards *)
Theorem C90_csm_large_refuted :
  exists2 c, figure_csm [:: (2%:R : F)] = Ok c & ~~ sorted <=%R c.1.
Proof. by eexists; first by []; rewrite /= (ler_nat _ 2 1). Qed.

Theorem C90_jacobi (deg : int) :
  figure_jacobi deg =
  if (3%:Z <= deg) && (deg <= 10%:Z) then Ok (iota 0 (absz deg))
  else Err (if deg < 3%:Z then KeyError else AssertionError).
Proof.
rewrite /figure_jacobi; case: (boolP (deg <= 10%:Z)) => h1 /=; last first.
  by rewrite andbF ifF //; lia.
by rewrite andbT ltNge; case: (boolP (3%:Z <= deg)).
Qed.

End Plots.

Section Examples.
Variable F : rcfType.

(* three samples 1, 2, 3 in a batch and a single one: the hypotheses are met *)
Example C89_ex :
  exists st, reached false [:: Arr1 [:: 1; 2%:R; 3%:R : F]; Arr0 6%:R] st /\
  mvalue [:: Arr1 [:: 1; 2%:R; 3%:R : F]; Arr0 6%:R] = Fin 3%:R.
Proof.
set h := [:: _; _].
have hh : nonempty_hist h by [].
have hc : all (fun x => cols_of x == 1%N) h by [].
have := C08_histories_succeed (d := 1%N) (c := true) (r := false) hh hc.
case E: run_hist => [st|] // _; exists st; split=> //.
rewrite /mvalue /avg /= !big_cons big_nil; congr Fin.
by apply: (@mulIf _ 4%:R); rewrite ?pnatr_eq0 // divfK ?pnatr_eq0 //; ring.
Qed.

Example C90_ex :
  exists2 c, figure_csm [:: 0; 0; 2%:R^-1 : F] = Ok c &
  step_before c.1 c.2 3%:R^-1 = 2%:R / 3%:R.
Proof.
have h3 : (0 : F) < 3%:R^-1 by rewrite invr_gt0 ltr0n.
have h2 : (0 : F) < 2%:R^-1 by rewrite invr_gt0 ltr0n.
have h23 : 3%:R^-1 < 2%:R^-1 :> F by rewrite ltf_pinv ?posrE ?ltr0n // ltr_nat.
have h21 : 2%:R^-1 <= 1 :> F by rewrite invf_le1 ?ltr0n // (ler_nat _ 1).
have [|||||| c hc hs] := @C90_csm F [:: 0; 0; 2%:R^-1] 3%:R^-1.
- by [].
- by rewrite /= lexx (ltW h2).
- by move=> x; rewrite !inE => /or3P[] /eqP ->; rewrite ?ler01.
- exact: ltW.
- exact: le_trans (ltW h23) h21.
- by rewrite !inE !negb_or (gt_eqF h3) (lt_eqF h23).
exists c => //.
by rewrite hs /= (ltW h3) leNgt h23.
Qed.

End Examples.

Print Assumptions C89_message_total.
Print Assumptions C89_confidence_message.
Print Assumptions C89_count_knee_message.
Print Assumptions C89_tolerance_message.
Print Assumptions C89_default_message_refuted.
Print Assumptions C89_confidence_message_raises.
Print Assumptions C89_control_variate_message.
Print Assumptions C89_long_estimate.
Print Assumptions C90_running_average.
Print Assumptions C90_points_match.
Print Assumptions C90_not_recorded.
Print Assumptions C90_true_error_refuted.
Print Assumptions C90_error_curve.
Print Assumptions C90_csm.
Print Assumptions C90_csm_large_refuted.
Print Assumptions C90_jacobi.
