(* Properties C08, C10-C17: estimators and stopping criteria (estimators.py). *)
From mathcomp Require Import all_ssreflect all_algebra.
From mathcomp Require Import ring.
From Coq Require Import String.
From Verif Require Import Base Spec ModelStats LemStats PropStats ModelEstimators LemEstimators LemEst2.
Set Implicit Arguments.
Unset Strict Implicit.
Unset Printing Implicit Defensive.
Import Order.TTheory GRing.Theory Num.Theory.
Local Open Scope ring_scope.

Section Props.
Variable F : rcfType.
Variable tppf : F -> nat -> F.
Variable zq : F -> F.
Implicit Types (h : seq (arr F)) (X : seq (seq F)).
Local Notation call := (crit_call tppf zq).

Lemma all_rows_rcons h x : all_rows (rcons h x) = all_rows h ++ rows_of x.
Proof. by rewrite /all_rows map_rcons -cats1 flatten_cat /= cats0. Qed.

(* ---------------- C08 -------------------------------------------------- *)
(* n_samples, estimate and values after every successful history of non-empty
   batches, with either accumulator. *)
Theorem C08_estimator_history d c r h st :
  nonempty_hist h -> run_hist (@mest_update F) (mest_init F d c r) h = Some st ->
  [/\ ms_n st = size (all_rows h),
      ev_len (mest_view st) = size (all_rows h),
      mest_estimate st = (if h is [::] then PFloat NaN else as_read d (cavg (all_rows h)))
    & ms_values st = (if r then Some (all_rows h) else None)].
Proof.
move=> hh; rewrite mest_init_of => hr.
have gh := mest_ok_good hh hr; move: hr; rewrite mest_hist_gen // => -[<-] /=; split=> //.
case: h hh {gh} => [|x h] hh; first by rewrite /mest_estimate /mest_of /store_of; case: c.
rewrite /mest_estimate /= /store_of.
by case: (c); rewrite /cov_mean /mean_call /= (all_rows_nonempty _ hh) // /as_read;
  case: eqP => // ->; rewrite nth_mkseq.
Qed.

(* delta is +inf on a fresh object and afterwards the change of the mean caused
   by the last batch (the mean of nothing counting as 0). *)
Theorem C08_delta_history d c r h x st :
  nonempty_hist (rcons h x) ->
  run_hist (@mest_update F) (mest_init F d c r) (rcons h x) = Some st ->
  ms_delta st =
  mkseq (fun i => Fin (cavg (all_rows (rcons h x)) i -
                       (if h is [::] then 0 else cavg (all_rows h) i))) d.
Proof.
move=> hh; rewrite mest_init_of => hr.
have gh := mest_ok_good hh hr; move: hr; rewrite mest_hist_gen // => -[<-] /=.
rewrite last_delta_rcons /=; apply: eq_mkseq => i.
by case: (h) => //; rewrite /all_rows /= cavg_nil.
Qed.

Theorem C08_fresh_delta d c r : ms_delta (mest_init F d c r) = nseq d PInf.
Proof. by []. Qed.

(* histories of non-empty batches with matching columns do succeed *)
Theorem C08_histories_succeed d c r h :
  nonempty_hist h -> all (fun x => cols_of x == d) h ->
  run_hist (@mest_update F) (mest_init F d c r) h <> None.
Proof.
move=> h1 h2; rewrite mest_hist //.
by elim: h h1 h2 => //= x h IH /andP[a1 a2] /andP[b1 b2]; rewrite /good_batch a1 b1 IH.
Qed.

(* a helper used below: the state reached is the closed form *)
Lemma run_form d c r h st :
  nonempty_hist h -> run_hist (@mest_update F) (mest_init F d c r) h = Some st ->
  all (good_batch d) h /\ st = mest_of d c r (all_rows h) (last_delta d [::] (nseq d PInf) h).
Proof.
move=> hh; rewrite mest_init_of => hr.
by have gh := mest_ok_good hh hr; move: hr; rewrite mest_hist_gen // => -[<-].
Qed.

Lemma view_estimate d c r h x st : (0 < d)%N ->
  nonempty_hist (rcons h x) -> run_hist (@mest_update F) (mest_init F d c r) (rcons h x) = Some st ->
  ev_estimate (mest_view st) = Ok (mkseq (fun i => Fin (cavg (all_rows (rcons h x)) i)) d).
Proof.
move=> d0 hh hr; have [gh ->] := run_form hh hr.
have X0 : (0 < size (all_rows (rcons h x)))%N.
  by rewrite lt0n (all_rows_nonempty _ hh) //; case: (h).
rewrite /mest_view /= /mest_estimate /= /store_of; congr Ok.
by case: (c) => /=; exact: pyval_x_read.
Qed.

(* ---------------- C10 -------------------------------------------------- *)
Lemma avg_affine X (a e : nat -> F) k : (0 < size X)%N ->
  avg [seq r`_0 - \sum_(i < k) a i * (r`_i.+1 - e i) | r <- X] =
  cavg X 0 - \sum_(i < k) a i * (cavg X i.+1 - e i).
Proof.
move=> hX; have nz := size_neq0 F hX; apply: (mulfI nz).
rewrite -[in LHS](size_map (fun r : seq F => r`_0 - \sum_(i < k) a i * (r`_i.+1 - e i)) X) -sum_avg big_map sumrB sum_cavg mulrBr.
congr (_ - _); rewrite exchange_big /= mulr_sumr; apply: eq_bigr => i _.
rewrite -mulr_sumr sumrB sum_cavg big_const_seq count_predT iter_addr_0 -[e i *+ _]mulr_natl.
by move: (a i) (size X)%:R (cavg _ _) (e i) => u v w z; ring.
Qed.

Lemma cv_hist_init d (st0 st : cvest F) h :
  run_hist (@cv_update F) st0 h = Some st ->
  cv_cov st0 = cov_init F d -> cv_n st0 = 0%N -> nonempty_hist h ->
  [/\ cv_cov st = cov_of d (all_rows h), cv_n st = size (all_rows h), cv_ecv st = cv_ecv st0
    & if cv_cor st0 && (size h != 0%N) then
        (exists a, bind (cov_call (cov_of d (all_rows h)) 1) (@cv_coef F d) = Ok a /\ cv_alpha st = Some a)
      else cv_alpha st = cv_alpha st0].
Proof. by rewrite cov_init_of => hr e1 e2 hh; exact: (@cv_hist_gen F st0 d [::] h st). Qed.

(* Fixed coefficients: the estimate is the average of the corrected samples. *)
Theorem C10_fixed_alpha_estimate (ecv alpha : seq F) rec h st0 st :
  cv_init ecv (Some alpha) rec = Ok st0 -> nonempty_hist h ->
  run_hist (@cv_update F) st0 h = Some st ->
  cv_estimate st = Ok (if h is [::] then NaN else
    Fin (avg [seq r`_0 - \sum_(i < size ecv) alpha`_i * (r`_i.+1 - ecv`_i) | r <- all_rows h])).
Proof.
rewrite /cv_init; case: eqP => //= ek [<-] hh hr.
have [e1 e2 e3 e4] := cv_hist_init hr (d := (size ecv).+1) erefl erefl hh.
rewrite /= in e1 e2 e3 e4.
rewrite /cv_estimate e1 e2 e3 e4; case: h hh {hr e1 e2 e3 e4} => [//|x h] hh.
have X0 : (0 < size (all_rows (x :: h)))%N by rewrite lt0n (all_rows_nonempty _ hh).
rewrite (all_rows_nonempty _ hh) //= (avg_affine (fun i => alpha`_i) (fun i => ecv`_i)) //.
congr Ok.
have -> : mkseq (fun i => Fin ((mkseq (cavg (all_rows (x :: h))) (size ecv).+1)`_i.+1 - ecv`_i)) (size ecv)
  = [seq Fin y | y <- mkseq (fun i => cavg (all_rows (x :: h)) i.+1 - ecv`_i) (size ecv)].
  rewrite -map_comp; apply/(@eq_from_nth _ NaN); rewrite ?size_mkseq // => i hi.
  by rewrite !nth_mkseq // nth_mkseq.
rewrite (xdot_fin (k := size ecv)) ?size_mkseq //=; congr (Fin (_ - _)).
by apply: eq_bigr => i _; rewrite nth_mkseq.
Qed.

(* all-zero coefficients: the plain sample mean of the target *)
Theorem C10_zero_alpha_plain_mean (ecv : seq F) rec h st0 st :
  cv_init ecv (Some (nseq (size ecv) 0)) rec = Ok st0 -> h <> [::] -> nonempty_hist h ->
  run_hist (@cv_update F) st0 h = Some st ->
  cv_estimate st = Ok (Fin (cavg (all_rows h) 0)).
Proof.
move=> e0 hn hh hr; rewrite (C10_fixed_alpha_estimate e0 hh hr).
case: h hn hh hr => // x h _ hh _; congr (Ok (Fin (avg _))); apply: eq_map => r.
by rewrite big1 ?subr0 // => i _; rewrite nth_nseq; case: ifP; rewrite mul0r.
Qed.

(* coefficients of the wrong length are rejected at construction, and only those *)
Theorem C10_alpha_length (ecv : seq F) alpha rec :
  cv_init ecv alpha rec = Err AssertionError <->
  (exists2 a, alpha = Some a & size a <> size ecv).
Proof.
rewrite /cv_init; case: alpha => [a|]; last by split=> // -[].
case: eqP => /= e; split=> //; first by case=> b [<-]; rewrite e.
by move=> _; exists a => // /esym.
Qed.

(* ---------------- C11 -------------------------------------------------- *)
Lemma unfold_solve k (C : seq (seq F)) a : np_solve k C = Ok a ->
  exists al : seq F, [/\ a = [seq Fin x | x <- al], size al = k &
    forall i, (i < k)%N -> \sum_(j < k) (nth [::] C i.+1)`_j.+1 * al`_j = (nth [::] C i.+1)`_0].
Proof.
rewrite /np_solve; set M := \matrix_(i, j) _; set b := \col_i _.
case: ifP => // uM [<-].
exists [seq (invmx M *m b) i 0 | i <- enum 'I_k]; split.
- by rewrite -[RHS]map_comp; apply: eq_map.
- by rewrite size_map size_enum_ord.
move=> i hi; have E : M *m (invmx M *m b) = b by rewrite mulmxA mulmxV // mul1mx.
have := congr1 (fun v : 'cV_k => v (Ordinal hi) 0) E.
rewrite !mxE /= => <-; apply: eq_bigr => j _; rewrite mxE /=; congr (_ * _).
by rewrite (nth_map j) ?size_enum_ord // nth_ord_enum.
Qed.

(* Estimated coefficients: whenever a history succeeds (with, for a single
   control variable, non-constant control values), the coefficients are finite,
   the coefficients and the implied intercept minimise the residual sum of
   squares over ALL coefficients and intercepts, and the estimate is the fitted
   line evaluated at the known expectations. *)
Theorem C11_estimated_alpha_least_squares (ecv : seq F) rec h st0 st :
  ecv <> [::] -> cv_init ecv None rec = Ok st0 -> h <> [::] -> nonempty_hist h ->
  run_hist (@cv_update F) st0 h = Some st ->
  (size ecv = 1%N -> scatter (all_rows h) 1 1 != 0) ->
  exists (al : seq F) (b : F),
    [/\ cv_alpha st = Some [seq Fin x | x <- al], size al = size ecv,
        (forall a' b', rss (size ecv) (all_rows h) (fun i => al`_i) b
                       <= rss (size ecv) (all_rows h) a' b')
      & cv_estimate st = Ok (Fin (b + \sum_(i < size ecv) al`_i * ecv`_i))].
Proof.
move=> en; rewrite /cv_init /= => -[<-] hn hh hr.
have [e1 e2 e3 e4] := cv_hist_init hr (d := (size ecv).+1) erefl erefl hh.
have k0 : (0 < size ecv)%N by case: (ecv) en.
move: e4; rewrite /= in e1 e2 e3 *; rewrite (_ : size h != 0%N) /=; last by case: (h) hn.
case=> a [ha hal] nz.
have X1 : (1 < size (all_rows h))%N.
  rewrite ltnNge; apply/negP => le1; by move: ha; rewrite cov_call_of_few.
move: ha; rewrite cov_call_of // /bind /cv_coef.
set den := _%:~R; set X := all_rows h in e1 e2 X1 nz *.
have den0 : den != 0.
  by rewrite /den intr_eq0 subr_eq0; apply/eqP => -[] e; move: X1; rewrite e.
set C := mkseq _ _.
have nC i j : (i <= size ecv)%N -> (j <= size ecv)%N -> (nth [::] C i)`_j = scatter X i j / den.
  by move=> hi hj; rewrite nth_mkseq ?ltnS // nth_mkseq ?ltnS.
have sol : forall c : seq F, size c = size ecv ->
  (forall i, (i < size ecv)%N -> \sum_(j < size ecv) scatter X i.+1 j.+1 * c`_j = scatter X i.+1 0) ->
  a = [seq Fin x | x <- c] ->
  exists (al : seq F) (b : F),
    [/\ cv_alpha st = Some [seq Fin x | x <- al], size al = size ecv,
        (forall a' b', rss (size ecv) X (fun i => al`_i) b <= rss (size ecv) X a' b')
      & cv_estimate st = Ok (Fin (b + \sum_(i < size ecv) al`_i * ecv`_i))].
  move=> c sc ne ea; exists c, (ls_b (size ecv) X (fun i => c`_i)); split=> //.
  - by rewrite hal ea.
  - by apply: ls_optimal.
  rewrite /cv_estimate e1 e2 e3 hal ea (_ : size X == 0%N = false); last by case: (size X) X1.
  rewrite [co_mu _]/=.
  have -> : mkseq (fun i => Fin ((mkseq (cavg X) (size ecv).+1)`_i.+1 - ecv`_i)) (size ecv)
    = [seq Fin y | y <- mkseq (fun i => cavg X i.+1 - ecv`_i) (size ecv)].
    rewrite -map_comp; apply/(@eq_from_nth _ NaN); rewrite ?size_mkseq // => i hi.
    by rewrite !nth_mkseq // nth_mkseq.
  rewrite /= (xdot_fin (k := size ecv)) ?size_mkseq //=; congr (Ok (Fin _)).
  rewrite /ls_b -addrA; congr (_ + _).
  have -> : \sum_(i < size ecv) c`_i * (mkseq (fun i0 => cavg X i0.+1 - ecv`_i0) (size ecv))`_i =
     \sum_(i < size ecv) c`_i * cavg X i.+1 - \sum_(i < size ecv) c`_i * ecv`_i.
    by rewrite -sumrB; apply: eq_bigr => i _; rewrite nth_mkseq // mulrBr.
  by rewrite opprB addrC.
rewrite eqSS (nC 0%N 1%N) // (nC 1%N 1%N) //; case: eqP => [k1 [ea]|_ /unfold_solve[c [ea sc ne]]].
  have nz1 := nz k1.
  apply: (sol [:: scatter X 0 1 / scatter X 1 1]); rewrite ?k1 //.
    case=> // _; rewrite big_ord1 /= mulrC divfK //; exact: scatter_sym.
  rewrite -ea mulf_eq0 (negPf nz1) invr_eq0 (negPf den0) /=.
  by rewrite invf_div mulrA divfK.
apply: (sol c) => // i hi.
have := ne i hi; rewrite nC // => eqn.
apply: (mulIf (x := den^-1)); first by rewrite invr_eq0.
rewrite -eqn mulr_suml; apply: eq_bigr => j _.
by rewrite nC // mulrAC.
Qed.

(* ---------------- C12 -------------------------------------------------- *)
(* Over every history of updates, failed ones included: *)
(* the tolerance criterion never reports convergence on a control-variate estimator *)
Theorem C12_tolerance_never_fires ecv alpha rec h st0 rtol atol o :
  cv_init ecv alpha rec = Ok st0 ->
  call (CTol rtol atol o) (cv_view (run_any (@cv_update F) st0 h)) <> Ok true.
Proof.
rewrite /cv_init; case: ifP => // _ [<-]; set s0 := MkCv _ _ _ _ _ _ _.
have [e1 e2] := cv_run_delta s0 h.
rewrite /= /tol_call; case: (ev_estimate _) => //= est; rewrite e1 /=.
case: o => //; rewrite {1}/bind xlt_pinf.
by case: (norm1d _ _) => // v; rewrite /bind xlt_pinf.
Qed.

(* with the default norm order it raises *)
Theorem C12_tolerance_default_raises ecv alpha rec h st0 rtol atol est :
  cv_init ecv alpha rec = Ok st0 ->
  cv_estimate (run_any (@cv_update F) st0 h) = Ok est ->
  call (CTol rtol atol Ord2) (cv_view (run_any (@cv_update F) st0 h)) = Err ValueError.
Proof.
rewrite /cv_init; case: ifP => // _ [<-]; set s0 := MkCv _ _ _ _ _ _ _.
have [e1 e2] := cv_run_delta s0 h.
by rewrite /= /tol_call /= => -> /=; rewrite e1.
Qed.

(* the knee criterion never fires: no values are ever recorded *)
Theorem C12_knee_never_fires ecv alpha rec h st0 S :
  cv_init ecv alpha rec = Ok st0 ->
  call (CKnee S) (cv_view (run_any (@cv_update F) st0 h)) = Ok false.
Proof.
rewrite /cv_init; case: ifP => // _ [<-]; set s0 := MkCv _ _ _ _ _ _ _.
have [e1 e2] := cv_run_delta s0 h.
by rewrite /= /knee_call /= e2 /=; case: (rec).
Qed.

(* the confidence criterion raises from three samples on, and before that
   does not fire unless given an infinite tolerance *)
Theorem C12_confidence_raises ecv alpha rec h st0 conf atol rtol :
  cv_init ecv alpha rec = Ok st0 ->
  let st := run_any (@cv_update F) st0 h in
  call (CConf conf atol rtol) (cv_view st) =
  if (cv_n st < 3)%N then Ok (xle PInf atol || xle PInf rtol) else Err AttributeError.
Proof.
by move=> _ st; rewrite /= /conf_call /= /conf_error /=; case: ifP.
Qed.

(* coefficients to be estimated: a first update with a single sample raises,
   after the sample has been counted; the estimate then raises as well *)
Theorem C12_single_first_sample_raises (ecv : seq F) rec st0 x :
  cv_init ecv None rec = Ok st0 -> cols_of x = (size ecv).+1 -> size (rows_of x) = 1%N ->
  exists st, [/\ cv_update st0 x = (st, Some TypeError), cv_n st = 1%N, cv_alpha st = None
               & cv_estimate st = Err TypeError].
Proof.
rewrite /cv_init /= => -[<-] hc hs.
have gx : good_batch (size ecv).+1 x by rewrite /good_batch hc hs eqxx.
eexists; split.
- by rewrite /cv_update /= cov_init_of cov_update_good //= cov_call_of_few ?hs.
- by [].
- by [].
- by [].
Qed.

(* ---------------- C13 -------------------------------------------------- *)
Theorem C13_or_and_not_values a b e x y :
  call a e = Ok x -> call b e = Ok y ->
  [/\ call (COr a b) e = Ok (x || y), call (CAnd a b) e = Ok (x && y) & call (CNot a) e = Ok (~~ x)].
Proof. by move=> /= -> -> /=. Qed.

(* both operands are always evaluated: an exception of either one surfaces, the
   left operand's first *)
Theorem C13_exceptions_surface a b e ex :
  (call a e = Err ex -> [/\ call (COr a b) e = Err ex, call (CAnd a b) e = Err ex & call (CNot a) e = Err ex]) /\
  (forall x, call a e = Ok x -> call b e = Err ex ->
     call (COr a b) e = Err ex /\ call (CAnd a b) e = Err ex).
Proof. by split=> [/= -> | x /= -> ->]. Qed.

(* algebra, exceptions included *)
Theorem C13_algebra a b c e :
  [/\ call (CNot (COr a b)) e = call (CAnd (CNot a) (CNot b)) e,
      call (CNot (CAnd a b)) e = call (COr (CNot a) (CNot b)) e,
      call (COr a (COr b c)) e = call (COr (COr a b) c) e,
      call (CAnd a (CAnd b c)) e = call (CAnd (CAnd a b) c) e
    & call (CNot (CNot a)) e = call a e].
Proof.
rewrite /=; split; case: (crit_call _ _ a e) => [x|] //=; try (case: (crit_call _ _ b e) => [y|] //=);
  try (case: (crit_call _ _ c e) => [z|] //=); rewrite ?negb_or ?negb_and ?orbA ?andbA ?negbK //.
Qed.

Theorem C13_commutative a b e : is_ok (call a e) -> is_ok (call b e) ->
  call (COr a b) e = call (COr b a) e /\ call (CAnd a b) e = call (CAnd b a) e.
Proof.
rewrite /=; case: (crit_call _ _ a e) => [x|//] _; case: (crit_call _ _ b e) => [y|//] _ /=.
by rewrite orbC andbC.
Qed.

(* ---------------- C14 -------------------------------------------------- *)
Theorem C14_count_exact n d c r h st :
  nonempty_hist h -> run_hist (@mest_update F) (mest_init F d c r) h = Some st ->
  call (CCount F n) (mest_view st) = Ok (n <= (size (all_rows h))%:Z).
Proof. by move=> hh hr; have [gh ->] := run_form hh hr. Qed.

(* once true it stays true *)
Theorem C14_count_monotone n d c r h1 h2 st1 st2 :
  nonempty_hist (h1 ++ h2) ->
  run_hist (@mest_update F) (mest_init F d c r) h1 = Some st1 ->
  run_hist (@mest_update F) (mest_init F d c r) (h1 ++ h2) = Some st2 ->
  call (CCount F n) (mest_view st1) = Ok true -> call (CCount F n) (mest_view st2) = Ok true.
Proof.
move=> hh r1 r2.
have h1' : nonempty_hist h1 by move: hh; rewrite /nonempty_hist all_cat => /andP[].
rewrite (C14_count_exact _ h1' r1) (C14_count_exact _ hh r2) => -[h]; congr Ok.
rewrite /all_rows map_cat flatten_cat size_cat PoszD; apply: le_trans h _.
by rewrite ler_addl.
Qed.

(* a count of zero or less is satisfied by the empty estimator *)
Theorem C14_nonpositive_count n d c r : n <= 0 ->
  call (CCount F n) (mest_view (mest_init F d c r)) = Ok true.
Proof. by move=> hn; rewrite /= /count_call /= hn. Qed.

(* ---------------- C15 -------------------------------------------------- *)
(* textbook norm for each supported order *)
Definition spec_norm (o : nord) : option (seq F -> F) :=
  match o with
  | OrdNone | Ord2 => Some (@l2norm F)
  | Ord1 => Some (@l1norm F)
  | OrdInf => Some (@linfnorm F)
  | _ => None
  end.

Lemma norm1d_spec o N (f : nat -> F) d : spec_norm o = Some N -> (0 < d)%N ->
  norm1d o (mkseq (fun i => Fin (f i)) d) = Ok (Fin (N (mkseq f d))).
Proof.
have -> : mkseq (fun i => Fin (f i)) d = [seq Fin x | x <- mkseq f d] by rewrite -map_comp.
case: o => // -[<-] d0 /=; rewrite ?norm2_fin ?norm1_fin //.
case: d d0 => // d _; rewrite [mkseq f d.+1]/(mkseq _ _) /mkseq /=.
rewrite (norminf_fin (f 0%N)); congr (Ok (Fin _)).
rewrite /linfnorm big_cons; elim: [seq f i | i <- iota 1 d] => [|y s IH] /=.
  by rewrite big_nil; apply/esym/max_idPl.
by rewrite IH big_cons maxCA.
Qed.

(* Exact meaning after every successful history with at least one batch: the
   norm of the last change of the mean is below atol or below rtol times the
   norm of the mean. *)
Theorem C15_tolerance_exact d c r h x st rtol atol o N :
  (0 < d)%N -> spec_norm o = Some N -> nonempty_hist (rcons h x) ->
  run_hist (@mest_update F) (mest_init F d c r) (rcons h x) = Some st ->
  let mu := mkseq (cavg (all_rows (rcons h x))) d in
  let change := mkseq (fun i => cavg (all_rows (rcons h x)) i -
                       (if h is [::] then 0 else cavg (all_rows h) i)) d in
  call (CTol (Fin rtol) (Fin atol) o) (mest_view st) =
  Ok ((N change < atol) || (N change < rtol * N mu)).
Proof.
move=> d0 hN hh hr mu change.
have ee := view_estimate d0 hh hr; have ed := C08_delta_history hh hr.
rewrite /= /tol_call ee /= ed (norm1d_spec _ hN d0) /=.
by case: ifP => //= _; rewrite (norm1d_spec _ hN d0) /=.
Qed.

(* the empty estimator is never converged (counting "norm" of order 0 excepted) *)
Theorem C15_empty_never_fires d c r rtol atol o :
  (0 < d)%N -> o <> Ord0 ->
  call (CTol rtol atol o) (mest_view (mest_init F d c r)) <> Ok true.
Proof.
case: d => // d _ o0; rewrite /crit_call /tol_call /bind [ev_estimate _]/= [ev_delta _]/= /norm_d.
move: (pyval_x _ _) => est.
have e1 : norm1d o (nseq d.+1 (PInf : xnum F)) = Ok PInf \/ exists ex, norm1d o (nseq d.+1 (PInf : xnum F)) = Err ex.
  have a1 : xsum [seq xmul x x | x <- nseq d.+1 (PInf : xnum F)] = PInf.
    have h n : xsum [seq xmul x x | x <- nseq n (PInf : xnum F)] = Fin 0 \/
               xsum [seq xmul x x | x <- nseq n (PInf : xnum F)] = PInf.
      by elim: n => [|n IH] /=; [left|right; case: IH => ->].
    by rewrite /=; case: (h d) => ->.
  have a2 : xsum [seq xabs x | x <- nseq d.+1 (PInf : xnum F)] = PInf.
    have h n : xsum [seq xabs x | x <- nseq n (PInf : xnum F)] = Fin 0 \/
               xsum [seq xabs x | x <- nseq n (PInf : xnum F)] = PInf.
      by elim: n => [|n IH] /=; [left|right; case: IH => ->].
    by rewrite /=; case: (h d) => ->.
  have a3 : foldr (@xmax F) PInf [seq xabs x | x <- nseq d (PInf : xnum F)] = PInf.
    by elim: d {a1 a2} => [|n IH] //=; rewrite IH.
  have a4 : foldr (@xmin F) PInf [seq xabs x | x <- nseq d (PInf : xnum F)] = PInf.
    by elim: d {a1 a2 a3} => [|n IH] //=; rewrite IH.
  case: o o0 => // _; rewrite /norm1d ?a1 ?a2; try by left.
  - by left; rewrite /= a3.
  - by left; rewrite /= a4.
  - by right; exists ValueError.
rewrite -[PInf :: _]/(nseq d.+1 (PInf : xnum F)).
case: e1 => [-> | [ex ->]] //; rewrite xlt_pinf.
by case: (norm1d o est) => // v; rewrite xlt_pinf.
Qed.

(* order 0 counts non-zero entries, so it can fire on the empty estimator *)
Theorem C15_order0_fires_on_empty d c r atol : d%:R < atol ->
  call (CTol (Fin 0) (Fin atol) Ord0) (mest_view (mest_init F d c r)) = Ok true.
Proof.
move=> h; rewrite /= /tol_call /=.
by rewrite (_ : count _ (nseq d PInf) = d) ?h // -[RHS](size_nseq d (PInf : xnum F)); apply/eqP; rewrite -all_count; elim: (d) => //=.
Qed.

(* zero tolerances: never, whatever the estimator *)
Theorem C15_zero_tolerances_never o (e : eview F) : call (CTol (Fin 0) (Fin 0) o) e <> Ok true.
Proof. exact: tol_zero_false. Qed.

(* after the first batch the relative test compares the mean with itself, so
   with rtol <= 1 only the absolute test can succeed *)
Theorem C15_first_batch d c r x st rtol atol o N :
  (0 < d)%N -> spec_norm o = Some N -> (0 < size (rows_of x))%N -> rtol <= 1 ->
  run_hist (@mest_update F) (mest_init F d c r) [:: x] = Some st ->
  call (CTol (Fin rtol) (Fin atol) o) (mest_view st) =
  Ok (N (mkseq (cavg (rows_of x)) d) < atol).
Proof.
move=> d0 hN hx hrt hr.
have hh : nonempty_hist (rcons [::] x) by rewrite /= hx.
rewrite (C15_tolerance_exact (h := [::]) _ _ d0 hN hh hr) /= /all_rows /= cats0.
rewrite (eq_mkseq (g := cavg (rows_of x))); last by move=> i; rewrite subr0.
have Nge : 0 <= N (mkseq (cavg (rows_of x)) d).
  case: (o) hN => // -[<-]; rewrite ?/l2norm ?sqrtr_ge0 //.
    by apply: sumr_ge0 => *.
  by rewrite /linfnorm; elim/big_ind: _ => // a b ha hb; rewrite le_maxr ha.
congr Ok; rewrite [X in _ || X](_ : _ = false) ?orbF //.
by apply/negbTE; rewrite -leNgt ler_pimull.
Qed.

(* ---------------- C16 -------------------------------------------------- *)
(* the multiplier the criterion uses at n samples *)
Definition conf_score (conf : F) (n : nat) : F :=
  if (n < 30)%N then tppf ((conf + 1) / 2%:R) n.+1 else zq conf.

Lemma sample_var_ge0 (a : seq F) : (1 < size a)%N -> 0 <= sample_var a.
Proof.
move=> h; rewrite /sample_var mulr_ge0 //; first by apply: sumr_ge0 => *; exact: sqr_ge0.
by rewrite invr_ge0 subr_ge0 ler1n; case: (size a) h.
Qed.

Lemma conf_error_dim1 conf r h st :
  nonempty_hist h -> run_hist (@mest_update F) (mest_init F 1 true r) h = Some st ->
  let a := col_of (all_rows h) 0 in (3 <= size a)%N ->
  conf_error tppf zq conf (mest_view st) =
  Ok (Fin (conf_score conf (size a) * std_err a), xabs (xdiv (Fin (std_err a)) (Fin (avg a)))).
Proof.
move=> hh hr a h3; have [gh ->] := run_form hh hr.
have sz : size a = size (all_rows h) by rewrite size_map.
rewrite sz in h3.
have h1 : (1 < size (all_rows h))%N by exact: leq_trans h3.
rewrite /conf_error /mest_view /= ltnNge h3 /= cov_call_of1 //= scatter_var //.
have v0 : (sample_var (col_of (all_rows h) 0) < 0) = false.
  by apply/negbTE; rewrite -leNgt sample_var_ge0 // size_map.
rewrite v0 /= sqrtr_eq0 lern0 (_ : size _ == 0%N = false); last by case: (size _) h1.
have -> : mest_estimate (mest_of 1 true r (all_rows h) (last_delta 1 [::] [:: PInf] h)) = PFloat (Fin (avg a)).
  rewrite /mest_estimate /= /cov_mean /mean_call /= (_ : (size (all_rows h) == 0%N) = false) //.
  by case: (size _) h1.
by rewrite /= /conf_score /std_err sz.
Qed.

(* One-dimensional estimators with a covariance accumulator and at least three
   samples: the exact condition. *)
Theorem C16_confidence_exact conf atol rtol r h st :
  nonempty_hist h -> run_hist (@mest_update F) (mest_init F 1 true r) h = Some st ->
  let a := col_of (all_rows h) 0 in
  (3 <= size a)%N -> avg a != 0 ->
  call (CConf conf (Fin atol) (Fin rtol)) (mest_view st) =
  Ok ((conf_score conf (size a) * std_err a <= atol) || (`|std_err a / avg a| <= rtol)).
Proof.
move=> hh hr a h3 a0; rewrite /= /conf_call /= (conf_error_dim1 _ hh hr) //=.
by rewrite /xdiv (negPf a0).
Qed.

(* with mean exactly zero the relative test cannot succeed *)
Theorem C16_zero_mean conf atol rtol r h st :
  nonempty_hist h -> run_hist (@mest_update F) (mest_init F 1 true r) h = Some st ->
  let a := col_of (all_rows h) 0 in
  (3 <= size a)%N -> avg a = 0 ->
  call (CConf conf (Fin atol) (Fin rtol)) (mest_view st) =
  Ok (conf_score conf (size a) * std_err a <= atol).
Proof.
move=> hh hr a h3 a0; rewrite /= /conf_call /= (conf_error_dim1 _ hh hr) //= a0 eqxx.
by rewrite /xinf_of_sign; case: ifP => _ /=; rewrite ?orbF //; case: ifP => _ /=; rewrite orbF.
Qed.

(* never before three samples (finite tolerances), whatever the estimator *)
Theorem C16_never_before_three conf atol rtol (e : eview F) :
  ev_is_mean e -> (ev_nsamples e < 3)%N ->
  call (CConf conf (Fin atol) (Fin rtol)) e = Ok false.
Proof. by move=> hm hn; rewrite /= /conf_call hm /= /conf_error hn. Qed.

(* vector-valued estimators: raises from three samples on *)
Theorem C16_vector_raises conf atol rtol d r h st :
  (1 < d)%N -> nonempty_hist h ->
  run_hist (@mest_update F) (mest_init F d true r) h = Some st -> (3 <= size (all_rows h))%N ->
  call (CConf conf atol rtol) (mest_view st) = Err ValueError.
Proof.
move=> d1 hh hr h3; have [gh ->] := run_form hh hr.
rewrite /= /conf_call /= /conf_error /= ltnNge h3 /= cov_call_of //.
exact: leq_trans h3.
Qed.

(* without covariance accumulator: raises from three samples on *)
Theorem C16_no_covariance_raises conf atol rtol d r h st :
  nonempty_hist h ->
  run_hist (@mest_update F) (mest_init F d false r) h = Some st -> (3 <= size (all_rows h))%N ->
  call (CConf conf atol rtol) (mest_view st) = Err AttributeError.
Proof.
move=> hh hr h3; have [gh ->] := run_form hh hr.
by rewrite /= /conf_call /= /conf_error /= ltnNge h3.
Qed.

(* The margin is not the half-width of the library's own t confidence interval:
   two degrees of freedom too many make it strictly smaller below 30 samples. *)
Theorem C16_margin_smaller_than_interval conf r h st nq lo hi m rel :
  (forall p i j, (i < j)%N -> tppf p j < tppf p i) ->
  nonempty_hist h -> run_hist (@mest_update F) (mest_init F 1 true r) h = Some st ->
  let a := col_of (all_rows h) 0 in
  (3 <= size a < 30)%N -> 0 < std_err a ->
  conf_error tppf zq conf (mest_view st) = Ok (Fin m, rel) ->
  confidence_interval tppf nq a conf "t" = Ok (lo, hi) ->
  m < (hi - lo) / 2%:R.
Proof.
move=> dec hh hr a /andP[h3 h30] se0; rewrite (conf_error_dim1 _ hh hr) // => -[<- _].
rewrite /confidence_interval; case: ifP => //= _ [<- <-].
have -> : forall u v : F, (u + v - (u - v)) / 2%:R = v.
  by move=> u v; field.
rewrite (_ : np_std1 a / _ = std_err a) // ltr_pmul2r // /conf_score -/a h30 addrC.
apply: dec; rewrite subn1; exact: (leq_ltn_trans (leq_pred _)).
Qed.

(* ---------------- C17 -------------------------------------------------- *)
(* total variation up to k of the sequence v_j/(j+1) *)
Definition tv (v : seq F) (k : nat) : F :=
  \sum_(j < k.+1) `|v`_j.+1 / j.+2%:R - v`_j / j.+1%:R|.

(* The criterion fires exactly when the sensitivity is positive, the curve is
   not constant, and some point of the normalised curve exceeds the diagonal
   by more than S/(L-1), L+1 being the number of recorded numbers. *)
Theorem C17_knee_exact S (e : eview F) vs :
  ev_values e = Some vs -> (3 <= size vs)%N -> (3 <= size (flatten vs))%N ->
  let v := flatten vs in let L := (size v).-1 in
  call (CKnee S) e =
  Ok [&& 0 < S, tv v 0 != tv v L.-1 &
      [exists i : 'I_L, S / L.-1%:R < (tv v i - tv v 0) / (tv v L.-1 - tv v 0) - i%:R / L.-1%:R]].
Proof.
move=> ev h3 hv v L; rewrite /= /knee_call ev ltnNge h3 /= -/v.
have sy : size (knee_y v) = L by exact: size_knee_y.
have L1 : (1 < L)%N by rewrite /L; case: (size v) hv.
case E: (knee_y v) => [|y0 ys]; first by move: L1; rewrite -sy E.
rewrite -E; congr Ok; rewrite knee_core ?sy //; last by move=> i j; rewrite -sy; exact: knee_y_mono.
have yE i : (i < L)%N -> (knee_y v)`_i = tv v i by exact: nth_knee_y.
have lE : last 0 (knee_y v) = tv v L.-1.
  by rewrite -nth_last sy yE // prednK // ltnW.
rewrite lE yE; last exact: ltnW.
congr [&& _, _ & _]; apply/existsP/existsP => -[i hi].
  by exists i; move: hi; rewrite /dcurve sy lE !yE // ltnW.
by exists i; rewrite /dcurve sy lE !yE // ltnW.
Qed.

(* no record, or fewer than three values: false *)
Theorem C17_knee_needs_record S (e : eview F) :
  (if ev_values e is Some vs then (size vs < 3)%N else true) -> call (CKnee S) e = Ok false.
Proof. by rewrite /= /knee_call; case: (ev_values e) => // vs ->. Qed.

(* non-positive sensitivity never fires *)
Theorem C17_knee_nonpositive_sensitivity S (e : eview F) vs : S <= 0 ->
  ev_values e = Some vs -> (3 <= size vs)%N -> (3 <= size (flatten vs))%N ->
  call (CKnee S) e = Ok false.
Proof. by move=> hS ev h1 h2; rewrite (C17_knee_exact S ev h1 h2) ltNge hS. Qed.

(* scaling all recorded values changes nothing *)
Theorem C17_knee_scale_invariant S (e e' : eview F) vs k : k != 0 ->
  ev_values e = Some vs -> ev_values e' = Some [seq [seq k * x | x <- r] | r <- vs] ->
  (3 <= size vs)%N -> (3 <= size (flatten vs))%N ->
  call (CKnee S) e' = call (CKnee S) e.
Proof.
move=> k0 ev ev' h1 h2; rewrite (C17_knee_exact S ev h1 h2).
have fE : flatten [seq [seq k * x | x <- r] | r <- vs] = [seq k * x | x <- flatten vs] by rewrite map_flatten.
rewrite (C17_knee_exact S ev') ?size_map ?fE ?size_map //.
set v := flatten vs; set L := (size v).-1.
have L1 : (1 < L)%N by rewrite /L; case: (size v) h2.
have tE i : (i < L)%N -> tv [seq k * x | x <- v] i = `|k| * tv v i.
  move=> hi; rewrite /tv mulr_sumr; apply: eq_bigr => j _.
  have hj : (j.+1 < size v)%N.
    have hj1 : (j < L)%N by exact: leq_trans (ltn_ord j) hi.
    by move: hj1; rewrite /L; case: (size v) h2.
  by rewrite !(nth_map 0) // ?(ltnW hj) // -normrM mulrBr !mulrA.
have k1 : `|k| != 0 by rewrite normr_eq0.
have p1 : (L.-1 < L)%N by rewrite prednK // ltnW.
rewrite !tE //; last by exact: ltnW.
congr (Ok [&& _, _ & _]); first by rewrite (inj_eq (mulfI k1)).
apply: eq_existsb => i; rewrite !tE //; congr (_ < _ - _).
by rewrite -!mulrBr -mulf_div divff // mul1r.
Qed.

End Props.

(* ---------------- refutations and concrete cases ------------------------- *)
Section Concrete.
Variable F : rcfType.
Implicit Types (h : seq (arr F)).

Lemma avg_pm : avg [:: 1; -1; 0 : F] = 0.
Proof. by rewrite /avg !big_cons big_nil !addr0 subrr mul0r. Qed.

Lemma var_pm : sample_var [:: 1; -1; 0 : F] = 1.
Proof.
rewrite /sample_var avg_pm !big_cons big_nil !subr0 sqrrN expr1n expr0n /= !addr0.
by field.
Qed.

Lemma se_pm : 0 < std_err [:: 1; -1; 0 : F].
Proof. by rewrite /std_err var_pm sqrtr1 div1r invr_gt0 sqrtr_gt0 ltr0n. Qed.

(* a quantile family that decreases with the degrees of freedom *)
Definition dec_q (p : F) (n : nat) : F := n.+1%:R^-1.
Lemma dec_q_dec p i j : (i < j)%N -> dec_q p j < dec_q p i.
Proof. by move=> h; rewrite /dec_q ltf_pinv ?posrE ?ltr0n // ltr_nat. Qed.

(* C16: "the margin equals the half-width of the library's own t interval" is
   false, already for three samples. *)
Theorem C16_margin_is_interval_halfwidth_refuted :
  ~ (forall (tppf : F -> nat -> F) zq nq conf r h st lo hi m rel,
      (forall p i j, (i < j)%N -> tppf p j < tppf p i) ->
      nonempty_hist h -> run_hist (@mest_update F) (mest_init F 1 true r) h = Some st ->
      (3 <= size (col_of (all_rows h) 0) < 30)%N ->
      conf_error tppf zq conf (mest_view st) = Ok (Fin m, rel) ->
      confidence_interval tppf nq (col_of (all_rows h) 0) conf "t" = Ok (lo, hi) ->
      m = (hi - lo) / 2%:R).
Proof.
pose h := [:: Arr1 [:: 1; -1; 0 : F]].
have hh : nonempty_hist h by [].
have [st hr] : exists st, run_hist (@mest_update F) (mest_init F 1 true false) h = Some st.
  by eexists; apply: mest_hist.
have ci : exists lo hi, confidence_interval dec_q (fun=> 1) (col_of (all_rows h) 0) (2%:R^-1) "t" = Ok (lo, hi).
  rewrite /confidence_interval; case: ifP => [|_]; last by do 2!eexists.
  by rewrite invr_ge0 ler0n invf_le1 ?ltr0n // ler1n.
case: ci => lo [hi ci] H.
have ce := conf_error_dim1 dec_q (fun=> 1) (2%:R^-1) hh hr erefl.
have := C16_margin_smaller_than_interval dec_q_dec hh hr (erefl : 3 <= 3 < 30)%N se_pm ce ci.
by rewrite -(H _ _ _ _ _ _ _ _ _ _ _ dec_q_dec hh hr (erefl : 3 <= 3 < 30)%N ce ci) ltxx.
Qed.

(* C17: the curve is not built from running means: all running means of a
   constant record are equal, yet the criterion fires. *)
Lemma tv_const n k : (k.+1 < n)%N -> tv (nseq n (1 : F)) k = 1 - k.+2%:R^-1.
Proof.
rewrite /tv; elim: k => [|k IH] hk.
  rewrite big_ord1 !nth_nseq hk (ltn_trans _ hk) // divr1 mul1r distrC ger0_norm //.
  by rewrite subr_ge0 invf_le1 ?ltr0n // ler1n.
rewrite big_ord_recr /= IH; last exact: ltn_trans hk.
rewrite !nth_nseq hk (ltn_trans _ hk) // !mul1r distrC ger0_norm; first by rewrite addrA subrK.
by rewrite subr_ge0 lef_pinv ?posrE ?ltr0n // ler_nat.
Qed.

Theorem C17_running_means_refuted tppf zq : exists (S : F) (e : eview F) (vs : seq (seq F)),
  [/\ ev_values e = Some vs, (3 <= size vs)%N, all (fun r => size r == 1%N) vs,
      (forall k, (k < size vs)%N -> avg (take k.+1 (flatten vs)) = 1)
    & crit_call tppf zq (CKnee S) e = Ok true].
Proof.
pose vs := nseq 4 [:: (1 : F)].
pose e := EView 4 true 4 (D0 PInf) (Ok [::]) (Some vs) None : eview F.
exists (10%:R^-1), e, vs; split=> //.
  have -> : flatten vs = nseq 4 1 by [].
  move=> k hk; rewrite -{1}(subnKC (n := 4) (m := k.+1)) // nseqD take_size_cat ?size_nseq //.
  rewrite /avg big_nseq size_nseq iter_addr_0 divff // pnatr_eq0 //.
rewrite (C17_knee_exact _ _ _ (erefl : ev_values e = Some vs)) //.
have -> : flatten vs = nseq 4 1 by [].
rewrite !tv_const // invr_gt0 ltr0n /=; congr Ok; apply/andP; split.
  by rewrite (inj_eq (addrI _)) eqr_opp (inj_eq (@invr_inj _)) eqr_nat.
apply/existsP; exists (Ordinal (erefl : 1 < 3)%N); rewrite -[[:: 1; 1; 1; 1]]/(nseq 4 (1 : F)) tv_const //=.
have -> : (1 - 3%:R^-1 - (1 - 2%:R^-1)) / (1 - 4%:R^-1 - (1 - 2%:R^-1)) - 1 / 2%:R = 6%:R^-1 :> F.
  by field.
rewrite -invfM ltf_pinv ?posrE ?mulr_gt0 ?ltr0n // -natrM ltr_nat //.
Qed.

End Concrete.

(* ---------------- the hypotheses are met --------------------------------- *)
Section Examples.
Variable F : rcfType.
Variable tppf : F -> nat -> F.
Variable zq : F -> F.

(* C08, C14-C16: batches of several shapes, both accumulators *)
Definition eh1 : seq (arr F) := [:: Arr1 [:: 1; -1]; Arr0 0].
Definition eh2 : seq (arr F) := [:: Arr2 2 [:: [:: 1; 0]; [:: 0; 1]]; Arr2 2 [:: [:: 2%:R; 3%:R]]].

Example ex_C08 : nonempty_hist eh1 /\ nonempty_hist eh2 /\
  (forall c r, exists st, run_hist (@mest_update F) (mest_init F 1 c r) eh1 = Some st) /\
  (forall c r, exists st, run_hist (@mest_update F) (mest_init F 2 c r) eh2 = Some st).
Proof. by do !split; move=> c r; eexists; apply: mest_hist. Qed.

(* the confidence criterion on eh1 (mean exactly 0, standard error 1/sqrt 3) *)
Example ex_C16 st atol rtol : run_hist (@mest_update F) (mest_init F 1 true false) eh1 = Some st ->
  crit_call tppf zq (CConf (2%:R^-1) (Fin atol) (Fin rtol)) (mest_view st) =
  Ok (tppf ((2%:R^-1 + 1) / 2%:R) 4 * (Num.sqrt 3%:R)^-1 <= atol).
Proof.
move=> hr; have a0 : avg (col_of (all_rows eh1) 0) = 0 := avg_pm F.
rewrite (C16_zero_mean _ _ _ _ _ (erefl : nonempty_hist eh1) hr (erefl : 3 <= 3)%N a0).
have -> : col_of (all_rows eh1) 0 = [:: 1; -1; 0] by [].
by rewrite /conf_score /= /std_err var_pm sqrtr1 div1r.
Qed.

(* C15 on the same history: the change caused by the last batch is 0 *)
Example ex_C15 st : run_hist (@mest_update F) (mest_init F 1 true false) eh1 = Some st ->
  crit_call tppf zq (CTol (Fin 0) (Fin 1) Ord2) (mest_view st) = Ok true.
Proof.
move=> hr; have := C15_tolerance_exact tppf zq (h := [:: Arr1 [:: 1; -1]]) (x := Arr0 0) 0 1
   (erefl : (0 < 1)%N) (erefl : spec_norm F Ord2 = Some _) erefl hr.
have -> : cavg (all_rows (rcons [:: Arr1 [:: 1; -1]] (Arr0 0))) = cavg (all_rows eh1) by [].
move=> ->; congr Ok; apply/orP; left.
have e1 : cavg (all_rows eh1) 0 = 0 := avg_pm F.
have e2 : cavg (all_rows [:: Arr1 [:: 1; -1 : F]]) 0 = 0.
  by rewrite /cavg /avg /= !big_cons big_nil addr0 subrr mul0r.
rewrite /l2norm /mkseq /= e1 e2 big_cons big_nil subrr expr0n /= addr0 sqrtr0; exact: ltr01.
Qed.

(* C10/C11/C12: one control variable *)
Definition ch1 : seq (arr F) := [:: Arr2 2 [:: [:: 1; 1]; [:: -1; -1]]].

Lemma ch1_scatter : scatter (all_rows ch1) 1 1 = 2%:R.
Proof.
have a0 : avg [:: 1; -1 : F] = 0 by rewrite /avg !big_cons big_nil addr0 subrr mul0r.
rewrite /scatter /cavg /= a0 !big_cons big_nil !subr0 mulrNN !mulr1 addr0.
by rewrite -[2%:R]/(1 + 1).
Qed.

Example ex_C10 : exists st0, cv_init [:: 3%:R] (Some [:: 2%:R : F]) false = Ok st0 /\
  exists st, run_hist (@cv_update F) st0 ch1 = Some st.
Proof.
eexists; split; first by [].
by rewrite /run_hist /ch1 /cv_update /cv_cov cov_init_of cov_update_good //=; eexists.
Qed.

Example ex_C11 : exists st0, cv_init [:: 3%:R : F] None false = Ok st0 /\
  (exists st, run_hist (@cv_update F) st0 ch1 = Some st) /\ scatter (all_rows ch1) 1 1 != 0.
Proof.
eexists; split; first by [].
split; last by rewrite ch1_scatter pnatr_eq0.
by rewrite /run_hist /ch1 /cv_update /cv_cov cov_init_of cov_update_good // cov_call_of //; eexists.
Qed.

(* two control variables, solved as a linear system *)
Definition ch2 : seq (arr F) :=
  [:: Arr2 3 [:: [:: 5%:R; 1; 1]; [:: 0; 1; -1]; [:: 0; -1; 1]; [:: 0; -1; -1]]].

Example ex_C11_two : exists st0, cv_init [:: 3%:R : F; 1] None false = Ok st0 /\
  exists st, run_hist (@cv_update F) st0 ch2 = Some st.
Proof.
eexists; split; first by [].
rewrite /run_hist /ch2 /cv_update /cv_cov cov_init_of cov_update_good // [cat _ _]/=.
rewrite cov_call_of // /bind /cv_coef [co_dim _ == _]/= [_.-1]/= /np_solve.
set M := \matrix_(i, j) _.
suff -> : M \in unitmx by eexists.
have s11 (i j : nat) : (0 < i < 3)%N -> (0 < j < 3)%N ->
  scatter [:: [:: 5%:R; 1; 1]; [:: 0; 1; -1]; [:: 0; -1; 1]; [:: 0; -1; -1 : F]] i j = (i == j)%:R * 4%:R.
  have c1 : forall i, (0 < i < 3)%N -> cavg [:: [:: 5%:R; 1; 1]; [:: 0; 1; -1]; [:: 0; -1; 1]; [:: 0; -1; -1 : F]] i = 0.
    by case=> [//|[|[|//]]] _; rewrite /cavg /avg /= !big_cons big_nil; field.
  move=> hi hj; rewrite /scatter !c1 // !big_cons big_nil.
  case: i hi => [//|[|[|//]]] _; case: j hj => [//|[|[|//]]] _ /=; ring.
have -> : M = (4%:R / (4%:Z - 1)%:~R)%:M.
  have o2 (k : 'I_2) : (k <= 1)%N by case: k.
  apply/matrixP => i j; rewrite !mxE !nth_mkseq ?ltnS //.
  rewrite [rows_of _]/= s11 ?ltnS ?o2 //.
  case: (altP (i =P j)) => [->|ne]; first by rewrite eqxx mul1r mulr1n.
  rewrite (_ : (i.+1 == j.+1) = false) ?mul0r ?mulr0n //; exact: negbTE.
rewrite unitmxE det_scalar unitfE expf_eq0 /= mulf_eq0 negb_or pnatr_eq0 /=.
by rewrite invr_eq0 intr_eq0.
Qed.

(* C12: a first single-sample update *)
Example ex_C12 : exists st0 (x : arr F), [/\ cv_init [:: 3%:R : F] None true = Ok st0,
  cols_of x = 2%N & size (rows_of x) = 1%N].
Proof. by eexists; exists (Arr2 2 [:: [:: 1; 2%:R]]). Qed.

End Examples.

Print Assumptions C08_estimator_history.
Print Assumptions C08_delta_history.
Print Assumptions C08_fresh_delta.
Print Assumptions C08_histories_succeed.
Print Assumptions C10_fixed_alpha_estimate.
Print Assumptions C10_zero_alpha_plain_mean.
Print Assumptions C10_alpha_length.
Print Assumptions C11_estimated_alpha_least_squares.
Print Assumptions C12_tolerance_never_fires.
Print Assumptions C12_tolerance_default_raises.
Print Assumptions C12_knee_never_fires.
Print Assumptions C12_confidence_raises.
Print Assumptions C12_single_first_sample_raises.
Print Assumptions C13_or_and_not_values.
Print Assumptions C13_exceptions_surface.
Print Assumptions C13_algebra.
Print Assumptions C13_commutative.
Print Assumptions C14_count_exact.
Print Assumptions C14_count_monotone.
Print Assumptions C14_nonpositive_count.
Print Assumptions C15_tolerance_exact.
Print Assumptions C15_empty_never_fires.
Print Assumptions C15_order0_fires_on_empty.
Print Assumptions C15_zero_tolerances_never.
Print Assumptions C15_first_batch.
Print Assumptions C16_confidence_exact.
Print Assumptions C16_zero_mean.
Print Assumptions C16_never_before_three.
Print Assumptions C16_vector_raises.
Print Assumptions C16_no_covariance_raises.
Print Assumptions C16_margin_smaller_than_interval.
Print Assumptions C16_margin_is_interval_halfwidth_refuted.
Print Assumptions C17_knee_exact.
Print Assumptions C17_knee_needs_record.
Print Assumptions C17_knee_nonpositive_sensitivity.
Print Assumptions C17_knee_scale_invariant.
Print Assumptions C17_running_means_refuted.
