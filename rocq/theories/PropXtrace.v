(* Properties C36, C37, C38, C39 (xtrace) *)
From Coq Require Import String.
From mathcomp Require Import all_ssreflect all_algebra zify ring.
From Verif Require Import Base Spec ModelStats LemStats PropStats ModelEstimators LemEstimators LemEst2
  PropEstimators ModelTyping ModelRandom ModelTrace LemTrace PropTrace ModelHutchpp PropHutchpp
  ModelXtrace LemXtrace LemXrun.
Set Implicit Arguments.
Unset Strict Implicit.
Unset Printing Implicit Defensive.
Import Order.TTheory GRing.Theory Num.Theory.
Local Open Scope ring_scope.

(* ---- the helper -------------------------------------------------------------- *)
Section Helper.
Variable F : rcfType.

(* the i-th leave-one-out estimate for the projector P *)
Definition loo_estimate n (A P : 'M[F]_n) (w : 'cV[F]_n) : F :=
  \tr (P *m A) + (w^T *m (1%:M - P) *m A *m (1%:M - P) *m w) 0 0.

Theorem C36_helper_leave_one_out n m (A : 'M[F]_n) (W Q : 'M[F]_(n, m)) (R Ri : 'M[F]_m) pdf i P :
  Q^T *m Q = 1%:M -> Q *m R = A *m W -> Ri *m R = 1%:M -> pdf <> VName "sphere" ->
  loo_projector (A *m W) i P ->
  xtrace_helper W (A *m Q) Q R Ri pdf i 0 = loo_estimate A P (col i W).
Proof.
move=> QQ QR RiR hp hP; have hl := loo_ok QQ RiR i; rewrite QR in hl.
rewrite (loo_unique hP hl) (helper_loo QQ RiR QR) /loo_estimate /dt ?mulmxA //.
by case: pdf hp => // s hs; apply/String.eqb_neq => e; apply: hs; rewrite e.
Qed.

(* such a projector exists: the theorem is not empty *)
Theorem C36_projector_exists n m (Y Q : 'M[F]_(n, m)) (R Ri : 'M[F]_m) i :
  Q^T *m Q = 1%:M -> Q *m R = Y -> Ri *m R = 1%:M ->
  exists P, loo_projector Y i P /\ forall P', loo_projector Y i P' -> P' = P.
Proof.
move=> QQ QR RiR; exists (loo Q Ri i); split; first by rewrite -QR; exact: loo_ok.
by move=> P' h; apply: loo_unique h _; rewrite -QR; exact: loo_ok.
Qed.

(* n probes on the sphere of radius sqrt n, helper called with the string *)
Theorem C38_rescaled_exact n (A W Q R Ri : 'M[F]_n) i :
  Q^T *m Q = 1%:M -> Q *m R = A *m W -> Ri *m R = 1%:M ->
  ((col i W)^T *m col i W) 0 0 = n%:R ->
  ((Ri *m Q^T *m W) i i != 0) ->
  xtrace_helper W (A *m Q) Q R Ri (VName "sphere") i 0 = \tr A.
Proof.
move=> QQ QR RiR hw hd.
have Q1 : Q *m Q^T = 1%:M by exact: mulmx1C.
rewrite /xtrace_helper /= [LHS]mxE !diag_prodE [(\col__ _) i 0]mxE col_normE !diag_prodE.
rewrite exprMn [col_norm _ i 0 ^+ 2]col_normE (s_unit RiR) mulr1.
have -> : dt (col i (Q^T *m W)) (col i (Q^T *m W)) = n%:R.
  by rewrite col_mul dtM trmxK mulmxA Q1 mul1mx.
rewrite !subrr !add0r div1r real_normK ?num_real //.
set s := col i (sphericalS Ri); set w := col i W in hw *.
have -> : \tr (Q^T *m (A *m Q)) = \tr A by rewrite mxtrace_mulC -mulmxA Q1 mulmx1.
set d := dt s (col i (Q^T *m W)).
have d0 : d != 0.
  move: hd; have -> : (Ri *m Q^T *m W) i i = Num.sqrt (\sum_k Ri i k ^+ 2) * d.
    rewrite -mulmxA mxE /d dtE big_distrr /=; apply: eq_bigr => l _.
    by rewrite [s l 0]mxE [sphericalS Ri l i]mxE [col i _ l 0]mxE mulrA mulrCA mulfV ?mulr1 ?(nu_neq0 RiR).
  by rewrite mulf_eq0 negb_or => /andP[].
have := resid_loo Ri QQ QR i.
rewrite /= -/s -/w -/d.
have -> : (1%:M - loo Q Ri i) *m w = d *: (Q *m s).
  rewrite mulmxBl mul1mx /loo -/s -!mulmxA mulmxBl mul1mx -mulmxA dt_scal mulmxBr mulmxA Q1 mul1mx.
  by rewrite opprB addrCA subrr addr0 -scalemxAr /d /w col_mul.
rewrite -scalemxAr dtZl dtZr => e.
rewrite !linearB /= !dtBl !dtBr ![col i (_ *m _ *m _)]col_mul !col_mul -/w -/s in e *.
have -> : dt ((Q^T *m (A *m Q))^T *m (Q^T *m w)) s = dt (Q^T *m w) (Q^T *m (A *m Q) *m s) by rewrite [RHS]dtM.
rewrite -e.
have -> : dt (Q *m s) (A *m (Q *m s)) = dt s (Q^T *m (A *m Q) *m s) by rewrite -!mulmxA [RHS]dtM trmxK.
move: (dt s (Q^T *m (A *m Q) *m s)) (\tr A) => x y; by field.
Qed.
End Helper.

(* ---- runs -------------------------------------------------------------------- *)
Section Runs.
Variable F : rcfType.
Variables (G : Type) (unif : G -> rat * G) (gauss : G -> F * G).
Variables (tppf : F -> nat -> F) (zq : F -> F).
Variable n : nat.
Variable qr_insert : forall k, 'M[F]_(n, k) -> 'M[F]_k -> 'cV[F]_n -> 'M[F]_(n, k + 1) * 'M[F]_(k + 1).
Implicit Types (A : 'M[F]_n) (batch : int) (p : pdfarg F G) (c : carg F) (kw : kwargs (pyarg F)) (r full cb : bool) (g : G).
Local Notation xtrace := (@xtrace F G unif gauss tppf zq n qr_insert).
Local Notation pdf_ok p sample := (hutch_pdf unif gauss n p = Ok sample /\ sample_ok sample).

(* ceil(n / batch) *)
Definition ceil_div (a b : nat) : nat := ((a + b.-1) %/ b)%N.

Lemma criterion_cases c kw : exists cr, xtrace_criterion n c kw = Ok cr /\
  (cr = CCount F n%:Z \/ cr = COr (CCount F n%:Z) (CCount F n%:Z)).
Proof.
rewrite /xtrace_criterion; case: ifP => _ /=; eexists; split; try reflexivity; [by left|by right].
Qed.

Lemma xtrace_inv fuel A batch p sample c kw r full cb g out : pdf_ok p sample -> 1 <= batch ->
  xtrace fuel A batch p c kw r full cb g = Some out ->
  exists st, [/\ xinv qr_insert A `|batch| sample r cb g st, xk st = n, (ceil_div n `|batch| < fuel)%N &
    out = Ok (let v := mest_estimate (xs_est st) in
      Run (if full then TPair v (EResult (Some (xs_est st)) v 0) else TScalar v)
          (xs_seen st) (xs_probes st) (xs_gen st))].
Proof.
move=> [hp ok] hb; rewrite /ModelXtrace.xtrace hb /= hp.
have [cr [-> hc]] := criterion_cases c kw.
have b0 : (0 < `|batch|)%N by rewrite absz_gt0 gt_eqF // (lt_le_trans ltr01).
have eb : batch = `|batch|%N%:Z by rewrite gtz0_abs // (lt_le_trans ltr01).
rewrite {1}eb; case E: (while_not _ _ _ _) => [o|//] ho.
have [st [eo hi hk hf]] := xloop_some ok b0 hc E.
exists st; split=> //; first by move: hf; rewrite /remaining subn0.
by move: ho; rewrite eo => -[<-].
Qed.

Lemma xtrace_stops fuel A batch p sample c kw r full cb g : pdf_ok p sample -> 1 <= batch ->
  (ceil_div n `|batch| < fuel)%N -> exists out, xtrace fuel A batch p c kw r full cb g = Some (Ok out).
Proof.
move=> [hp ok] hb hf; rewrite /ModelXtrace.xtrace hb /= hp.
have [cr [-> hc]] := criterion_cases c kw.
have b0 : (0 < `|batch|)%N by rewrite absz_gt0 gt_eqF // (lt_le_trans ltr01).
have eb : batch = `|batch|%N%:Z by rewrite gtz0_abs // (lt_le_trans ltr01).
have [|st [e _ _]] := @xloop F G tppf zq n qr_insert A _ sample r cb g ok b0 cr fuel hc.
  by rewrite /remaining subn0.
by rewrite {1}eb e; eexists.
Qed.

(* ---- C37 --------------------------------------------------------------------- *)
(* for every converge argument and keyword arguments (even a name that no
   criterion has): it stops, with exactly n probes, after ceil(n / batch)
   iterations *)
Theorem C37_n_probes fuel A batch p sample c kw r full cb g : pdf_ok p sample -> 1 <= batch ->
  (ceil_div n `|batch| < fuel)%N ->
  exists out, [/\ xtrace fuel A batch p c kw r full cb g = Some (Ok out), size (run_probes out) = n &
    size (run_seen out) = if cb then ceil_div n `|batch| else 0%N].
Proof.
move=> hp hb hf; have [out e] := xtrace_stops A c kw r full cb g hp hb hf; exists out; split=> //.
  by have [st [_ hk _ [->]]] := xtrace_inv hp hb e.
have [st [hi hk _ [->]]] := xtrace_inv hp hb e; rewrite /= (xi_seen hi) hk.
have -> : remaining n `|batch| n = 0%N.
  apply/eqP; rewrite remaining_gt0 // absz_gt0 gt_eqF // (lt_le_trans ltr01) //.
by case: (cb) => //; rewrite size_nseq subn0 /remaining subn0.
Qed.

(* fewer iterations are not enough *)
Theorem C37_iterations_needed fuel A batch p sample c kw r full cb g out : pdf_ok p sample -> 1 <= batch ->
  xtrace fuel A batch p c kw r full cb g = Some out -> (ceil_div n `|batch| < fuel)%N /\ is_ok out.
Proof. by move=> hp hb /(xtrace_inv hp hb) [st [_ _ h ->]]. Qed.

Theorem C37_criterion_ignored fuel A batch p c kw c' kw' r full cb g :
  xtrace fuel A batch p c kw r full cb g = xtrace fuel A batch p c' kw' r full cb g.
Proof.
rewrite /ModelXtrace.xtrace; case: ifP => // _.
have [cr [-> hc]] := criterion_cases c kw; have [cr' [-> hc']] := criterion_cases c' kw'.
case: (hutch_pdf _ _ _ _) => // sample.
suff -> : while_not fuel (xtrace_test tppf zq cr) (xtrace_body qr_insert A batch sample r cb) (xtrace_init F n r g) =
  while_not fuel (xtrace_test tppf zq cr') (xtrace_body qr_insert A batch sample r cb) (xtrace_init F n r g) by [].
apply: while_ext => s; rewrite /xtrace_test.
by case: hc => ->; case: hc' => -> //=; rewrite orbb.
Qed.

(* a criterion that every estimator satisfies from the start changes nothing *)
Theorem C37_stopping_rule_refuted : (0 < n)%N -> exists c : crit F,
  (forall e, crit_call tppf zq c e = Ok true) /\
  forall fuel A batch p sample kw r full cb g out, pdf_ok p sample -> 1 <= batch ->
    xtrace fuel A batch p (CGiven c) kw r full cb g = Some (Ok out) -> size (run_probes out) = n.
Proof.
move=> n0; exists (CCount F 0); split=> // fuel A batch p sample kw r full cb g out hp hb e.
by have [st [_ hk _ [->]]] := xtrace_inv hp hb e.
Qed.

Theorem C37_batch_checked fuel A batch p c kw r full cb g : batch < 1 ->
  xtrace fuel A batch p c kw r full cb g = Some (Err AssertionError).
Proof. by rewrite /ModelXtrace.xtrace ltNge => ->. Qed.

(* named distributions: the probes are the first n vectors of the stream, for
   every batch size *)
Theorem C37_probes_independent_of_batch fuel A batch s d c kw r full cb g out :
  lookup s ISO_DISTRIBUTIONS = Some d -> 1 <= batch ->
  xtrace fuel A batch (PName _ _ s) c kw r full cb g = Some (Ok out) ->
  iso_sampler unif gauss n d n g = (run_probes out, run_gen out).
Proof.
move=> hs hb e.
have hp : pdf_ok (PName _ _ s) (iso_sampler unif gauss n d).
  by split; [rewrite /hutch_pdf /isotropic hs|exact: iso_sample_ok].
have [st [hi hk _ [->]]] := xtrace_inv hp hb e; have h1 := xi_gen hi; rewrite hk in h1; apply: h1.
  move=> i j g1; rewrite /iso_sampler /mk_sampler C28_columns_split.
  case: (iso_fill _ _ d n i g1) => a g2 /=; case: (iso_fill _ _ d n j g2) => a' g3 /=.
  by rewrite /to_cols map_cat.
by rewrite /iso_sampler /mk_sampler iso_fill0.
Qed.

(* ---- C39 --------------------------------------------------------------------- *)
Theorem C39_callback_sees_nothing fuel A batch p sample c kw r full cb g out : pdf_ok p sample -> 1 <= batch ->
  xtrace fuel A batch p c kw r full cb g = Some (Ok out) ->
  run_seen out = if cb then nseq (ceil_div n `|batch|) (EResult None (PFloat (Fin 0)) 0) else [::].
Proof.
move=> hp hb e; have [st [hi hk _ [->]]] := xtrace_inv hp hb e; rewrite /= (xi_seen hi) hk.
have -> : remaining n `|batch| n = 0%N.
  apply/eqP; rewrite remaining_gt0 // absz_gt0 gt_eqF // (lt_le_trans ltr01) //.
by case: (cb) => //; rewrite subn0 /remaining subn0.
Qed.

Theorem C39_final_result fuel A batch p sample c kw r cb g out : pdf_ok p sample -> 1 <= batch ->
  xtrace fuel A batch p c kw r true cb g = Some (Ok out) ->
  exists v est, [/\ run_ret out = TPair v (EResult (Some est) v 0), mest_estimate est = v & ms_n est = n].
Proof.
move=> hp hb e; have [st [hi hk _ [->]]] := xtrace_inv hp hb e.
by eexists; eexists; split; [reflexivity|by []|rewrite (xi_n hi)].
Qed.

(* ---- C36 --------------------------------------------------------------------- *)
Theorem C36_xtrace_leave_one_out fuel A batch p sample c kw r full cb g out (P : 'I_n -> 'M[F]_n) :
  pdf_ok p sample -> 1 <= batch -> (0 < n)%N -> qr_insert_ok qr_insert ->
  xtrace fuel A batch p c kw r full cb g = Some (Ok out) ->
  let W := mat_of_cols n (run_probes out) in
  A *m W \in unitmx -> (forall i, loo_projector (A *m W) i (P i)) ->
  ret_value (run_ret out) = PFloat (Fin (avg [seq loo_estimate A (P i) (col i W) | i <- enum 'I_n])).
Proof.
move=> hp hb n0 qrP e W; have [st [hi hk _ eo]] := xtrace_inv hp hb e; move: eo => -[eo].
have eW : W = mat_of_cols n (xs_probes st) by rewrite /W eo.
move: W eW => W eW uW hP.
have {e eo}-> : ret_value (run_ret out) = mest_estimate (xs_est st) by rewrite eo /=; case: (full).
have [dl ->] := xi_est hi.
have hs : size (xs_probes st) = n by exact: hk.
have hY : A *m W = mat_of_cols n [seq A *m v | v <- xs_probes st] by rewrite eW mul_mat_of_cols ?hs.
have hl : linv (xk st) [seq A *m v | v <- xs_probes st].
  by rewrite hk; exists (invmx (A *m W)); rewrite -hY mulVmx.
have [gd gZ] := xi_good hi qrP hl; have hW := xi_W hi.
rewrite /mest_estimate /= /mean_call /= !size_map /xvals.
case: (xs_fac st) gd gZ => -[q rr] ri [_ QQ QR RiR] /= gZ.
move: QQ QR RiR gZ hW; rewrite hk => QQ QR RiR gZ hW.
rewrite size_map size_enum_ord [n == 0%N]eqn0Ngt n0 /=; congr (PFloat (Fin _)).
rewrite /cavg /col_of -map_comp -map_comp; congr avg; apply: eq_map => i /=.
rewrite gZ hW -eW; apply: C36_helper_leave_one_out => //; by rewrite QR hY.
Qed.
End Runs.

(* the oracle: classical Gram-Schmidt meets its specification *)
Section GramSchmidt.
Variable F : rcfType.
Variable n : nat.
Definition gs_insert k (Q : 'M[F]_(n, k)) (R : 'M[F]_k) (u : 'cV[F]_n) : 'M[F]_(n, k + 1) * 'M[F]_(k + 1) :=
  let v := u - Q *m (Q^T *m u) in
  let nv := Num.sqrt (dt v v) in
  (row_mx Q (nv^-1 *: v), block_mx R (Q^T *m u) 0 nv%:M).

Lemma dt_ge0 m (v : 'cV[F]_m) : 0 <= dt v v.
Proof. by rewrite dtE sumr_ge0 // => i _; rewrite -expr2 sqr_ge0. Qed.

Lemma dt_eq0 m (v : 'cV[F]_m) : dt v v = 0 -> v = 0.
Proof.
move=> h; apply/colP => i; rewrite mxE; move: h; rewrite dtE => /eqP.
rewrite psumr_eq0 => [|j _]; last by rewrite -expr2 sqr_ge0.
by move/allP/(_ i (mem_index_enum _)); rewrite -expr2 sqrf_eq0 => /eqP.
Qed.

Lemma gs_insert_ok : qr_insert_ok gs_insert.
Proof.
move=> k Q R u QQ hu; rewrite /gs_insert; set v := u - _; set nv := Num.sqrt _.
have v0 : v != 0 by rewrite subr_eq0.
have nv0 : nv != 0.
  rewrite sqrtr_eq0 -ltNge lt_neqAle dt_ge0 andbT eq_sym; apply: contra v0 => /eqP h; apply/eqP; exact: dt_eq0.
have nvE : nv ^+ 2 = dt v v by rewrite sqr_sqrtr // dt_ge0.
have Qv : Q^T *m v = 0 by rewrite mulmxBr mulmxA QQ mul1mx subrr.
have vQ : v^T *m Q = 0 by rewrite -[v^T *m Q]trmxK trmx_mul trmxK Qv trmx0.
split.
- rewrite tr_row_mx mul_col_row QQ -scalemxAr Qv scaler0 linearZ /= -!scalemxAl vQ scaler0 -scalemxAr scalerA.
  rewrite [v^T *m v]mx11_scalar -/(dt v v) -nvE scale_scalar_mx expr2 mulrA mulfVK // mulVf //.
  by rewrite -scalar_mx_block.
- rewrite mul_row_block mulmx0 addr0 mul_mx_scalar scalerA mulfV // scale1r; congr row_mx.
  by rewrite /v addrC subrK.
- exact: row_mxKl.
Qed.
End GramSchmidt.

(* ---- C38 ----------------------------------------------------------------------- *)
Section Sphere.
Variable F : rcfType.

(* with n probes the left-out direction is a single unit vector q, and the value
   without rescaling misses the trace by ((q.w)^2 - 1) q.Aq *)
Theorem C38_unrescaled_value n (A W : 'M[F]_n) i P :
  A *m W \in unitmx -> loo_projector (A *m W) i P ->
  exists q : 'cV[F]_n, [/\ (q^T *m q) 0 0 = 1, P = 1%:M - q *m q^T &
    loo_estimate A P (col i W) = \tr A + ((q^T *m col i W) 0 0 ^+ 2 - 1) * (q^T *m A *m q) 0 0].
Proof.
move=> uW hP.
(* factor A W by Gram-Schmidt through xtrace's own insertion *)
have [Q [R [Ri [QQ QR RiR]]]] : exists Q R Ri : 'M[F]_n, [/\ Q^T *m Q = 1%:M, Q *m R = A *m W & Ri *m R = 1%:M].
  pose us := [seq col j (A *m W) | j <- enum 'I_n].
  have su : size us = n by rewrite size_map size_enum_ord.
  have eu : mat_of_cols n us = A *m W.
    by apply/matrixP => a j; rewrite mxE (nth_map j) ?size_enum_ord // nth_ord_enum mxE.
  have g0 : qr_good 0 (of_mx (0 : 'M[F]_(n, 0)), of_mx (0 : 'M[F]_0), of_mx (0 : 'M[F]_0)) ([::] : seq 'cV[F]_n).
    by split=> //; apply/matrixP; case=> // a h; case.
  have hl : linv (0 + size us) ([::] ++ us).
    by rewrite add0n su; exists (invmx (A *m W)); rewrite eu mulVmx.
  have [[[q r] ri] [_ gd _]] := insert_cols_good (@gs_insert_ok F n) (erefl : size ([::] : seq (matrix_eqType F n 1)) = 0%N) g0 hl.
  by move: gd; rewrite add0n su => -[_ h1 h2 h3]; exists (to_mx n n q), (to_mx n n r), (to_mx n n ri); rewrite -eu.
have Q1 : Q *m Q^T = 1%:M by exact: mulmx1C.
pose s := col i (sphericalS Ri); exists (Q *m s).
have ss : s^T *m s = 1%:M by rewrite [_ *m _]mx11_scalar -/(dt s s) (s_unit RiR).
have qq : (Q *m s)^T *m (Q *m s) = 1%:M by rewrite trmx_mul -mulmxA [Q^T *m (Q *m s)]mulmxA QQ mul1mx.
have eP : P = 1%:M - Q *m s *m (Q *m s)^T.
  have hl := loo_ok QQ RiR i; rewrite QR in hl; rewrite (loo_unique hP hl) /loo -/s.
  by rewrite mulmxBr mulmx1 mulmxBl Q1 trmx_mul !mulmxA.
split=> //; first by rewrite qq mxE.
rewrite /loo_estimate eP; set q := Q *m s; set w := col i W.
rewrite subKr mulmxBl mul1mx linearB /= tr_dt.
have -> : (w^T *m (q *m q^T) *m A *m (q *m q^T) *m w) 0 0 = dt q w ^+ 2 * (q^T *m A *m q) 0 0.
  have -> : w^T *m (q *m q^T) *m A *m (q *m q^T) *m w = (w^T *m q) *m (q^T *m A *m q) *m (q^T *m w) by rewrite !mulmxA.
  rewrite [w^T *m q]mx11_scalar [q^T *m w]mx11_scalar mul_scalar_mx mul_mx_scalar -/(dt w q) -/(dt q w).
  by rewrite [dt w q]dtC scalerA [LHS]mxE expr2.
rewrite /dt -mulmxA; move: ((q^T *m w) 0 0) (\tr A) ((q^T *m (A *m q)) 0 0) => a b c; by ring.
Qed.
End Sphere.

(* ---- concrete runs --------------------------------------------------------------- *)
Section Concrete.
Variable F : rcfType.

(* normal draws 1, 0, 0, 1, 1, 0, 0, 1, ... *)
Definition eyeg (k : nat) : F * nat := ((if (k %% 4 == 0)%N || (k %% 4 == 3)%N then 1 else 0), k.+1).

Lemma eyeg_probes : iso_sampler altu eyeg 2 Sphere 2%N 0%N =
  ([:: \col_i (if i == 0%N :> nat then Num.sqrt 2%:R else 0); \col_i (if i == 1%N :> nat then Num.sqrt 2%:R else 0)], 4%N).
Proof.
rewrite /iso_sampler /mk_sampler /iso_fill /= /to_cols /= /sphere_col /=; congr ([:: _; _], _).
  apply/colP => -[[|[|//]] h]; rewrite !mxE /= !big_cons big_nil /= expr1n expr0n /= !addr0 sqrtr1 divr1 ?mul1r ?mul0r //.
apply/colP => -[[|[|//]] h]; rewrite !mxE /= !big_cons big_nil /= expr1n expr0n /= !addr0 ?add0r sqrtr1 divr1 ?mul1r ?mul0r //.
Qed.

(* the identity on 2 dimensions, spherical probes, any batch size: xtrace
   returns 3 *)
Theorem C38_sphere_exact_refuted :
  exists (unif : nat -> rat * nat) (gauss : nat -> F * nat) (A : 'M[F]_2), A \in unitmx /\
   forall tppf zq qr_insert fuel batch c kw r full cb out,
     qr_insert_ok qr_insert -> 1 <= batch ->
     xtrace unif gauss tppf zq qr_insert fuel A batch (PName _ _ "sphere") c kw r full cb 0%N = Some (Ok out) ->
     [/\ A *m mat_of_cols 2 (run_probes out) \in unitmx,
         forall v, v \in run_probes out -> (v^T *m v) 0 0 = 2%:R,
         ret_value (run_ret out) = PFloat (Fin 3%:R) & \tr A = 2%:R].
Proof.
exists altu, eyeg, 1%:M; split; first exact: unitmx1.
move=> tppf zq qr_insert fuel batch c kw r full cb out qrP hb e.
have hp := C37_probes_independent_of_batch (s := "sphere"%string) (d := Sphere) erefl hb e.
move: hp; rewrite eyeg_probes => -[ep _].
have r2 : Num.sqrt 2%:R ^+ 2 = 2%:R :> F by rewrite sqr_sqrtr ?ler0n.
have r0 : Num.sqrt 2%:R != 0 :> F by rewrite -sqrf_eq0 r2 pnatr_eq0.
have eW : mat_of_cols 2 (run_probes out) = (Num.sqrt 2%:R)%:M.
  rewrite -ep; apply/matrixP => -[[|[|//]] h] -[[|[|//]] h']; by rewrite !mxE /= ?mxE.
have uW : (1%:M : 'M[F]_2) *m mat_of_cols 2 (run_probes out) \in unitmx.
  by rewrite mul1mx eW unitmxE det_scalar unitfE expf_eq0 /= r0.
split=> //; last by rewrite mxtrace1.
  move=> v; rewrite -ep !inE => /orP[] /eqP ->; rewrite !mxE !big_ord_recl big_ord0 !mxE /= ?mul0r ?addr0 ?add0r -expr2 r2 //.
pose P (i : 'I_2) : 'M[F]_2 := 1%:M - delta_mx i i.
have hs : hutch_pdf altu eyeg 2 (PName _ _ "sphere") = Ok (iso_sampler altu eyeg 2 Sphere) /\ sample_ok (iso_sampler altu eyeg 2 Sphere).
  by split=> //; exact: iso_sample_ok.
rewrite (C36_xtrace_leave_one_out (P := P) hs hb _ qrP e uW) //.
  have E (i : 'I_2) : loo_estimate 1%:M (P i) (col i (mat_of_cols 2 (run_probes out))) = 3%:R.
    rewrite /loo_estimate eW mulmx1 mulmx1 /P subKr linearB /= mxtrace1.
    have -> : \tr (delta_mx i i) = 1 :> F.
      by rewrite /mxtrace (bigD1 i) //= big1 ?addr0 ?mxE ?eqxx // => j ji; rewrite mxE (negPf ji).
    rewrite -[_ *m delta_mx i i *m delta_mx i i]mulmxA mul_delta_mx.
    have -> : (col i (Num.sqrt 2%:R)%:M)^T *m delta_mx i i *m col i (Num.sqrt 2%:R)%:M = (2%:R)%:M :> 'M[F]_1.
      move: (Num.sqrt 2%:R : F) r2 => x <-; apply/matrixP => a b; rewrite !ord1 !mxE (bigD1 i) //= big1 ?addr0 => [|j ji]; last first.
        by rewrite [X in _ * X]mxE [X in _ * X]mxE (negPf ji) mulr0.
      rewrite mxE (bigD1 i) //= big1 ?addr0 => [|j ji]; last by rewrite !mxE (negPf ji) mul0r.
      by rewrite !mxE !eqxx mulr1 expr2.
    by rewrite mxE eqxx mulr1n -[1]/(1%:R) -natrB // -natrD.
  by rewrite (eq_map E) /avg big_map big_enum /= sumr_const size_map size_enum_ord card_ord -[X in X / _]mulr_natr mulfK ?pnatr_eq0.
move=> i; rewrite /P mul1mx eW; split.
- by rewrite linearB /= trmx1 trmx_delta.
- move=> j ji; rewrite mulmxBl mul1mx; apply/eqP; rewrite subr_eq addrC -subr_eq subrr eq_sym; apply/eqP.
  apply/matrixP => a b; rewrite !mxE big1 // => l _; rewrite !mxE.
  by case: (eqVneq l j) => [->|]; rewrite ?mulr0 // (negPf ji) andbF mul0r.
- exists ((Num.sqrt 2%:R)^-1 *: (1%:M - delta_mx i i)); split.
    by apply/rowP => j; rewrite !mxE; case: (eqVneq i j) => [->|]; rewrite ?eqxx ?subrr ?mulr0 //= subrr mulr0.
  by rewrite -scalemxAr mul_scalar_mx scalerA mulVf // scale1r.
Qed.

(* so the criterion of C38_rescaled_exact is not met by xtrace *)
Example xtrace_sphere_runs batch c kw r full cb tppf zq : 1 <= batch ->
  exists out, xtrace altu eyeg tppf zq (@gs_insert F 2) 3 1%:M batch (PName _ _ "sphere") c kw r full cb 0%N = Some (Ok out).
Proof.
move=> hb; have hs : hutch_pdf altu eyeg 2 (PName _ _ "sphere") = Ok (iso_sampler altu eyeg 2 Sphere) /\ sample_ok (iso_sampler altu eyeg 2 Sphere).
  by split=> //; exact: iso_sample_ok.
apply: (xtrace_stops _ _ _ _ _ _ _ _ _ _ hs) => //.
rewrite /ceil_div; have b0 : (0 < `|batch|)%N by lia.
rewrite ltn_divLR //; lia.
Qed.

Theorem C39_empty_operator_nan tppf zq G (unif : G -> rat * G) gauss qr_insert fuel A batch p sample c kw r cb g :
  hutch_pdf unif gauss 0 p = Ok sample -> 1 <= batch ->
  @xtrace F G unif gauss tppf zq 0 qr_insert fuel.+1 A batch p c kw r false cb g =
  Some (Ok (Run (TScalar (PFloat NaN)) [::] [::] g)).
Proof.
move=> hp hb; rewrite /xtrace hb /= hp.
by have [cr [-> []]] := @criterion_cases F 0 c kw => ->.
Qed.
End Concrete.

(* hypotheses of C38_rescaled_exact: two probes sqrt 2 e_i, A = I *)
Example rescaled_exact (F : rcfType) (i : 'I_2) :
  let c := Num.sqrt 2%:R : F in
  xtrace_helper (c%:M : 'M[F]_2) (1%:M *m 1%:M) 1%:M c%:M c^-1%:M (VName "sphere") i 0 = 2%:R.
Proof.
move=> c; have c0 : c != 0 by rewrite sqrtr_eq0 -ltNge ltr0n.
rewrite -(mxtrace1 F 2); apply: C38_rescaled_exact; rewrite ?trmx1 ?mul1mx ?mulmx1 //.
- by rewrite -scalar_mxM mulVf.
- have -> : (col i c%:M)^T *m col i c%:M = (c ^+ 2)%:M :> 'M[F]_1; last by rewrite mxE eqxx sqr_sqrtr // ler0n.
  apply/matrixP => a b; rewrite !mxE (bigD1 i) //= !mxE eqxx !ord1 eqxx big1 ?addr0 ?expr2 // => l li.
  by rewrite !mxE (negPf li) mul0r.
- by rewrite -scalar_mxM mulVf // mxE eqxx oner_eq0.
Qed.
Print Assumptions C36_helper_leave_one_out.
Print Assumptions C36_projector_exists.
Print Assumptions C38_rescaled_exact.
Print Assumptions C37_n_probes.
Print Assumptions C37_iterations_needed.
Print Assumptions C37_criterion_ignored.
Print Assumptions C37_stopping_rule_refuted.
Print Assumptions C37_batch_checked.
Print Assumptions C37_probes_independent_of_batch.
Print Assumptions C39_callback_sees_nothing.
Print Assumptions C39_final_result.
Print Assumptions C36_xtrace_leave_one_out.
Print Assumptions C38_unrescaled_value.
Print Assumptions C38_sphere_exact_refuted.
Print Assumptions C39_empty_operator_nan.
