(* More lemmas: control variates, confidence, knee. *)
From mathcomp Require Import all_ssreflect all_algebra.
From mathcomp Require Import ring.
From Verif Require Import Base Spec ModelStats LemStats ModelEstimators LemEstimators.
Set Implicit Arguments.
Unset Strict Implicit.
Unset Printing Implicit Defensive.
Import Order.TTheory GRing.Theory Num.Theory.
Local Open Scope ring_scope.

Section Lem.
Variable F : rcfType.
Implicit Types (X Y : seq (seq F)) (h : seq (arr F)).

(* ---- least squares ------------------------------------------------------ *)
Definition ls_b (k : nat) X (a : nat -> F) : F := cavg X 0 - \sum_(i < k) a i * cavg X i.+1.

Lemma sum_centered X i : \sum_(x <- X) (x`_i - cavg X i) = 0.
Proof.
by rewrite sumrB sum_cavg big_const_seq count_predT iter_addr_0 mulr_natl subrr.
Qed.

Lemma ls_resid k X a x :
  x`_0 - ls_b k X a - \sum_(i < k) a i * x`_i.+1 =
  (x`_0 - cavg X 0) - \sum_(i < k) a i * (x`_i.+1 - cavg X i.+1).
Proof.
rewrite /ls_b; under [in RHS]eq_bigr do rewrite mulrBr.
rewrite sumrB; move: (\sum_(i < k) _) (\sum_(i < k) _) (x`_0) (cavg X 0) => u v w z; ring.
Qed.

Lemma ls_optimal k X (a : nat -> F) :
  (forall i, (i < k)%N -> \sum_(j < k) scatter X i.+1 j.+1 * a j = scatter X i.+1 0) ->
  forall a' b', rss k X a (ls_b k X a) <= rss k X a' b'.
Proof.
move=> ne a' b'.
pose r (x : seq F) := (x`_0 - cavg X 0) - \sum_(i < k) a i * (x`_i.+1 - cavg X i.+1).
pose be := ls_b k X a - b' + \sum_(i < k) (a i - a' i) * cavg X i.+1.
pose t (x : seq F) := be + \sum_(i < k) (a i - a' i) * (x`_i.+1 - cavg X i.+1).
have rsum : \sum_(x <- X) r x = 0.
  rewrite /r sumrB sum_centered sub0r exchange_big /= big1 ?oppr0 // => i _.
  by rewrite -mulr_sumr sum_centered mulr0.
have rorth i : (i < k)%N -> \sum_(x <- X) r x * (x`_i.+1 - cavg X i.+1) = 0.
  move=> hi; rewrite /r.
  have -> : \sum_(x <- X) ((x`_0 - cavg X 0) - \sum_(j < k) a j * (x`_j.+1 - cavg X j.+1)) * (x`_i.+1 - cavg X i.+1)
     = scatter X i.+1 0 - \sum_(j < k) scatter X i.+1 j.+1 * a j.
    rewrite /scatter; under [X in _ = _ - X]eq_bigr do rewrite mulr_suml.
    rewrite [X in _ = _ - X]exchange_big /= -sumrB; apply: eq_bigr => x _.
    rewrite mulrBl mulr_suml; congr (_ - _); first by rewrite mulrC.
    apply: eq_bigr => j _.
    by move: (a j) (_ - _) (_ - _) => u v w; ring.
  by rewrite ne // subrr.
have rt : \sum_(x <- X) r x * t x = 0.
  rewrite /t; under eq_bigr do rewrite mulrDr mulr_sumr.
  rewrite big_split /= -mulr_suml rsum mul0r add0r exchange_big /= big1 // => i _.
  under eq_bigr do rewrite mulrCA.
  by rewrite -mulr_sumr rorth // mulr0.
have e1 : rss k X a (ls_b k X a) = \sum_(x <- X) r x ^+ 2.
  by rewrite /rss; apply: eq_bigr => x _; rewrite ls_resid.
have e2 : rss k X a' b' = \sum_(x <- X) r x ^+ 2 + \sum_(x <- X) t x ^+ 2.
  have -> : rss k X a' b' = \sum_(x <- X) (r x ^+ 2 + t x ^+ 2 + 2%:R * (r x * t x)).
    apply: eq_bigr => x _.
    have -> : x`_0 - b' - \sum_(i < k) a' i * x`_i.+1 = r x + t x.
      rewrite /r /t /be /ls_b.
      have s1 : \sum_(i < k) (a i - a' i) * (x`_i.+1 - cavg X i.+1) =
        \sum_(i < k) a i * x`_i.+1 - \sum_(i < k) a' i * x`_i.+1
        - \sum_(i < k) a i * cavg X i.+1 + \sum_(i < k) a' i * cavg X i.+1.
        rewrite -!sumrB -big_split /=; apply: eq_bigr => i _.
        by move: (a i) (a' i) (x`_i.+1) (cavg _ _) => u v w z; ring.
      have s2 : \sum_(i < k) a i * (x`_i.+1 - cavg X i.+1) =
        \sum_(i < k) a i * x`_i.+1 - \sum_(i < k) a i * cavg X i.+1.
        by rewrite -sumrB; apply: eq_bigr => i _; rewrite mulrBr.
      have s3 : \sum_(i < k) (a i - a' i) * cavg X i.+1 =
        \sum_(i < k) a i * cavg X i.+1 - \sum_(i < k) a' i * cavg X i.+1.
        by rewrite -sumrB; apply: eq_bigr => i _; rewrite mulrBl.
      rewrite s1 s2 s3.
      move: (\sum_(i < k) a i * x`_i.+1) (\sum_(i < k) a' i * x`_i.+1)
        (\sum_(i < k) a i * cavg X i.+1) (\sum_(i < k) a' i * cavg X i.+1) (x`_0) (cavg X 0)
        => u1 u2 u3 u4 u5 u6; ring.
    by move: (r x) (t x) => u v; ring.
  by rewrite !big_split /= -mulr_sumr rt mulr0 addr0.
rewrite e1 e2 ler_addl; apply: sumr_ge0 => x _; exact: sqr_ge0.
Qed.

(* ---- control variate states --------------------------------------------- *)
Lemma cv_update_delta (st : cvest F) x :
  cv_delta (cv_update st x).1 = cv_delta st /\ cv_values (cv_update st x).1 = cv_values st.
Proof.
rewrite /cv_update; case: (cov_update _ _) => c' [e|] //=.
by case: ifP => // _; case: (bind _ _).
Qed.

Lemma cv_run_delta (st : cvest F) h :
  cv_delta (run_any (@cv_update F) st h) = cv_delta st /\
  cv_values (run_any (@cv_update F) st h) = cv_values st.
Proof.
elim: h st => [//|x h IH] st /=.
by have [-> ->] := IH (cv_update st x).1; exact: cv_update_delta.
Qed.

Lemma cov_call_of d X : (1 < size X)%N -> (1 < d)%N ->
  cov_call (cov_of d X) 1 =
  Ok (PMat (Mat (mkseq (fun i => mkseq (fun j => scatter X i j / ((size X)%:Z - 1)%:~R) d) d))).
Proof.
move=> hX hd; rewrite /cov_call /cov_of /= subr_le0 leNgt ltz_nat hX /=.
case: eqP => [e|_]; first by rewrite e in hd.
congr Ok; congr PMat; congr Mat.
by rewrite -map_comp; apply: eq_mkseq => i /=; rewrite -map_comp.
Qed.

Lemma cov_call_of1 X : (1 < size X)%N ->
  cov_call (cov_of 1 X) 1 = Ok (PFloat (Fin (scatter X 0 0 / ((size X)%:Z - 1)%:~R))).
Proof. by move=> hX; rewrite /cov_call /cov_of /= subr_le0 leNgt ltz_nat hX. Qed.

Lemma cov_call_of_few d X : (size X <= 1)%N -> (0 < d)%N ->
  cov_call (cov_of d X) 1 = Ok (PFloat PInf).
Proof. by move=> hX hd; rewrite /cov_call /cov_of /= subr_le0 lez_nat hX eqn0Ngt hd. Qed.

(* one update of a control-variate object whose covariance is that of X *)
Lemma cv_cov_gen (st : cvest F) d X x st' :
  cv_cov st = cov_of d X -> (0 < size (rows_of x))%N -> cv_update st x = (st', None) ->
  [/\ good_batch d x, cv_cov st' = cov_of d (X ++ rows_of x), cv_n st' = size (X ++ rows_of x),
      cv_ecv st' = cv_ecv st /\ cv_cor st' = cv_cor st
    & if cv_cor st then (exists a, bind (cov_call (cov_of d (X ++ rows_of x)) 1) (@cv_coef F d) = Ok a /\ cv_alpha st' = Some a)
      else cv_alpha st' = cv_alpha st].
Proof.
move=> e hx; rewrite /cv_update e.
case gx: (good_batch d x).
  rewrite cov_update_good //=; case E: (cv_cor st).
    by case E2: (bind _ _) => [a|//] [<-] /=; split=> //; exists a.
  by case=> <- /=; split.
move: gx; rewrite /good_batch hx andbT /cols_of /cov_update.
by case: (as_rows x) => c Y /= ->.
Qed.

Lemma cv_hist_gen (st : cvest F) d X h st' :
  cv_cov st = cov_of d X -> cv_n st = size X -> all (fun x => 0 < size (rows_of x))%N h ->
  run_hist (@cv_update F) st h = Some st' ->
  [/\ cv_cov st' = cov_of d (X ++ all_rows h), cv_n st' = size (X ++ all_rows h),
      cv_ecv st' = cv_ecv st
    & if cv_cor st && (size h != 0%N) then (exists a, bind (cov_call (cov_of d (X ++ all_rows h)) 1) (@cv_coef F d) = Ok a /\ cv_alpha st' = Some a)
      else cv_alpha st' = cv_alpha st].
Proof.
elim: h st X => [|x h IH] st X e en /=.
  by move=> _ [<-]; rewrite /all_rows /= cats0 andbF; split.
case/andP=> hx hh; case E: (cv_update st x) => [st1 [//|]] hr.
have [gx e1 e2 [e3 e4] e5] := cv_cov_gen e hx E.
have [i1 i2 i3 i4] := IH _ _ e1 e2 hh hr.
rewrite i1 i2 i3 e3 /all_rows /= -!catA; split=> //.
move: i4 e5; rewrite e4; case: (cv_cor st) => /=; last by move=> -> ->.
case: h hh hr {IH i1 i2 i3} => [|y h] hh hr //=; last by move=> [a [ha hb]] _; exists a; rewrite catA.
by move=> -> [a [ha hb]]; exists a; rewrite cats0.
Qed.

(* ---- confidence ---------------------------------------------------------- *)
Lemma scatter_var X : (1 < size X)%N ->
  scatter X 0 0 / ((size X)%:Z - 1)%:~R = sample_var (col_of X 0).
Proof.
move=> _; rewrite /sample_var /scatter size_map; congr (_ / _).
  by rewrite big_map; apply: eq_bigr => x _; rewrite expr2.
by rewrite rmorphB /= -!pmulrn.
Qed.

(* ---- knee ---------------------------------------------------------------- *)
Lemma np_cumsum_mono (s : seq F) : all (fun x => 0 <= x) s ->
  forall i j, (i <= j < size s)%N -> (np_cumsum s)`_i <= (np_cumsum s)`_j.
Proof.
move=> hs i j /andP[hij hj]; rewrite /np_cumsum !nth_mkseq //; last exact: leq_ltn_trans hj.
rewrite -(big_mkord predT (fun k => s`_k)) -(big_mkord predT (fun k => s`_k)).
rewrite [X in _ <= X](@big_cat_nat _ _ _ i.+1) //= ler_addl big_nat; apply: sumr_ge0 => k /andP[_ hk].
by apply: (allP hs); apply: mem_nth; rewrite (leq_ltn_trans _ hj) // -ltnS.
Qed.

Lemma foldr_max_last (z m : F) s : z <= m -> all (fun x => x <= m) s -> m \in s -> foldr Num.max z s = m.
Proof.
move=> hz; have ub t : all (fun x => x <= m) t -> foldr Num.max z t <= m.
  by elim: t => //= x t IH /andP[h1 h2]; rewrite le_maxl h1 IH.
elim: s => //= x s IH /andP[hx hs]; rewrite inE => /orP[/eqP e|h].
  by rewrite -e; apply/max_idPl; exact: ub.
by rewrite IH //; apply/max_idPr.
Qed.

Lemma foldr_min_first (z m : F) s : z = m -> all (fun x => m <= x) s -> foldr Num.min z s = m.
Proof.
move=> ->; elim: s => //= x s IH /andP[hx hs]; rewrite IH //; exact/min_idPr.
Qed.

Section Mono.
Variable s : seq F.
Hypothesis s0 : (0 < size s)%N.
Hypothesis hm : forall i j, (i <= j < size s)%N -> s`_i <= s`_j.

Lemma seq_max_mono : seq_max s = last 0 s.
Proof.
have hl i : (i < size s)%N -> s`_i <= last 0 s.
  move=> hi; rewrite -nth_last; apply: hm.
  by case: (size s) hi => //= n; rewrite ltnS => ->; rewrite ltnSn.
apply: foldr_max_last; first exact: hl.
  by apply/(all_nthP 0) => i hi; exact: hl.
by case: (s) s0 => // x t _; rewrite [last _ _]/= mem_last.
Qed.

Lemma seq_min_mono : seq_min s = s`_0.
Proof. by apply: foldr_min_first => //; apply/(all_nthP 0) => i hi; apply: hm. Qed.
End Mono.

Arguments xmax : simpl never.
Arguments xmin : simpl never.
Lemma foldr_xmax_fin (x : F) (s : seq F) :
  foldr (@xmax F) (Fin x) [seq Fin y | y <- s] = Fin (foldr Num.max x s).
Proof. by elim: s => [|y s IH] //=; rewrite IH xmax_fin. Qed.

Lemma foldr_xmax_nan (x : xnum F) (s : seq (xnum F)) :
  x = NaN -> foldr (@xmax F) x s = NaN.
Proof. by move=> ->; elim: s => [|y s IH] //=; rewrite IH /xmax; case: y. Qed.

Lemma lt_foldr_max (t x : F) s : (t < foldr Num.max x s) = has (fun y => t < y) (x :: s).
Proof.
by elim: s => [|y s IH] /=; rewrite ?orbF // lt_maxr IH /= orbCA.
Qed.

Lemma size_knee_y (mv : seq F) : size (knee_y mv) = (size mv).-1.
Proof. by rewrite /knee_y /np_cumsum size_mkseq size_map size_mkseq /knee_scaled size_mkseq. Qed.

Lemma nth_knee_y (mv : seq F) k : (k < (size mv).-1)%N ->
  (knee_y mv)`_k = \sum_(j < k.+1) `|mv`_j.+1 / j.+2%:R - mv`_j / j.+1%:R|.
Proof.
move=> hk; rewrite /knee_y /np_cumsum nth_mkseq; last first.
  by rewrite size_map size_mkseq /knee_scaled size_mkseq.
apply: eq_bigr => j _.
have hj : (j < (size mv).-1)%N by apply: leq_ltn_trans hk; rewrite -ltnS.
have hj' : (j.+1 < size mv)%N by case: (size mv) hj => // n; rewrite ltnS.
rewrite (nth_map 0) ?size_mkseq ?/knee_scaled ?size_mkseq // nth_mkseq ?size_mkseq //.
by rewrite !nth_mkseq // ltnW.
Qed.

Lemma knee_y_mono (mv : seq F) i j : (i <= j < size (knee_y mv))%N ->
  (knee_y mv)`_i <= (knee_y mv)`_j.
Proof.
rewrite {1}/knee_y /np_cumsum size_mkseq => h.
by apply: np_cumsum_mono => //; apply/allP => _ /mapP[x _ ->].
Qed.

(* difference curve of a non-decreasing sequence *)
Definition dcurve (y : seq F) (i : nat) : F :=
  (y`_i - y`_0) / (last 0 y - y`_0) - i%:R / (size y).-1%:R.

Lemma knee_core (sens : F) (y : seq F) : (1 < size y)%N ->
  (forall i j, (i <= j < size y)%N -> y`_i <= y`_j) ->
  let dc := knee_curve y in
  let md := curve_max dc in
  let th := xsub md (xdiv (Fin sens) (Fin ((size y).-1)%:R)) in
  (xlt th md && xlt (last NaN dc) th) =
  [&& 0 < sens, y`_0 != last 0 y & [exists i : 'I_(size y), sens / (size y).-1%:R < dcurve y i]].
Proof.
move=> hy hm; rewrite /knee_curve seq_max_mono ?seq_min_mono //; try exact: ltnW.
have l0 : (0 : F) < (size y).-1%:R by rewrite ltr0n -subn1 subn_gt0.
case: (eqVneq y`_0 (last 0 y)) => [e|ne].
  have -> : curve_max (mkseq (fun i => xsub (xdiv (Fin (y`_i - y`_0)) (Fin (last 0 y - y`_0)))
               (Fin (linspace01 F (size y) i))) (size y)) = NaN.
    case E: (size y) hy => [//|n] _; rewrite /mkseq /=; apply: foldr_xmax_nan.
    by rewrite subrr -e subrr eqxx /= /xinf_of_sign eqxx.
  by rewrite /= andbF.
have ne' : last 0 y - y`_0 != 0 by rewrite subr_eq0 eq_sym.
have -> : mkseq (fun i => xsub (xdiv (Fin (y`_i - y`_0)) (Fin (last 0 y - y`_0)))
               (Fin (linspace01 F (size y) i))) (size y) = [seq Fin x | x <- mkseq (dcurve y) (size y)].
  by rewrite -map_comp; apply: eq_mkseq => i; rewrite /= (negPf ne').
have e : mkseq (dcurve y) (size y) = dcurve y 0 :: behead (mkseq (dcurve y) (size y)).
  by case: (size y) hy.
rewrite [in curve_max _]e /= foldr_xmax_fin.
set M := foldr _ _ _.
rewrite /xdiv (gt_eqF l0) /=.
have -> : (last NaN [seq Fin x | x <- mkseq (dcurve y) (size y)]) = Fin 0.
  rewrite e /= last_map; congr Fin.
  have -> : last (dcurve y 0) (behead (mkseq (dcurve y) (size y))) = last 0 (mkseq (dcurve y) (size y)).
    by rewrite [in RHS]e.
  rewrite -nth_last size_mkseq nth_mkseq; last by rewrite prednK // (ltn_trans _ hy).
  by rewrite /dcurve nth_last divff // divff ?subrr // gt_eqF.
rewrite /= ltr_subl_addr ltr_addl pmulr_lgt0 ?invr_gt0 // subr_gt0 /M lt_foldr_max -e.
congr (_ && _).
apply/hasP/existsP.
  case=> x /(nthP 0)[i]; rewrite size_mkseq => hi; rewrite nth_mkseq // => <- h.
  by exists (Ordinal hi).
case=> i h; exists (dcurve y i) => //; apply/(nthP 0); exists i; rewrite ?size_mkseq //.
by rewrite nth_mkseq.
Qed.

End Lem.
