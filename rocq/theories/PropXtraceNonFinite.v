(* Property C106: xtrace when the products of the probes are linearly dependent *)
From Coq Require Import String.
From mathcomp Require Import all_ssreflect all_algebra zify ring.
From Verif Require Import Base Spec ModelStats LemStats PropStats ModelEstimators LemEstimators ModelTyping ModelRandom
  ModelTrace LemTrace PropTrace ModelHutchpp PropHutchpp ModelXtrace LemXtrace LemXrun PropXtrace PropXdiag ModelNonFinite
  LemNonFinite PropNonFinite ModelXtraceNonFinite LemXtraceNonFinite.
Set Implicit Arguments.
Unset Strict Implicit.
Unset Printing Implicit Defensive.
Import Order.TTheory GRing.Theory Num.Theory.
Local Open Scope ring_scope.

Section Runs.
Variable F : rcfType.
Variable G : Type.
Variables (tppf : F -> nat -> F) (zq : F -> F).
Variable n : nat.
Variable qr_insert : forall k, 'M[F]_(n, k) -> 'M[F]_k -> 'cV[F]_n -> res ('M[F]_(n, k + 1) * 'M[F]_(k + 1)).
Implicit Types (A : 'M[F]_n) (batch : int) (sample : sampler F G n) (x : xnum F) (ps : seq 'cV[F]_n).
Local Notation xtrace_x := (xtrace_x tppf zq qr_insert).

Lemma linv_unit A ps : size ps = n -> linv n [seq A *m v | v <- ps] <-> A *m mat_of_cols n ps \in unitmx.
Proof.
move=> sz; rewrite /linv -mul_mat_of_cols ?sz //; split; first by case=> L /mulmx1_unit [].
by move=> u; exists (invmx (A *m mat_of_cols n ps)); rewrite mulVmx.
Qed.

Lemma linv_state A (st : xtstate F G n) : xtk st = n ->
  linv (xtk st) (xtY A st) <-> A *m mat_of_cols n (xt_probes st) \in unitmx.
Proof. by move=> hk; rewrite hk; apply: linv_unit. Qed.

Lemma xtrace_xE fuel A batch sample dflt r g x ps : sample_ok sample ->
  xtrace_x fuel A batch sample dflt r g = Some (Ok (x, ps)) ->
  exists st : xtstate F G n, [/\ xtshape st, xtk st = n, qr_insert_x qr_insert -> xtgood A st,
    x = head NaN (xest_estimate (xt_est st)) & ps = xt_probes st].
Proof.
move=> ok; rewrite /ModelXtraceNonFinite.xtrace_x; case: ifP => // /negbFE hb.
have b0 : (0 < `|batch|)%N by rewrite absz_gt0 gt_eqF // (lt_le_trans ltr01).
have eb : batch = `|batch|%N%:Z by rewrite gtz0_abs // (lt_le_trans ltr01).
rewrite {1}eb; case E: (while_not _ _ _ _) => [[st|]|] //= -[<- <-].
by have [h1 h2 h3] := xt_run ok b0 E; exists st.
Qed.

(* ---- C106 --------------------------------------------------------------------- *)
(* the result is a number exactly when the products A w of the n probes are independent; otherwise it is nan *)
Theorem C106_finite_iff fuel A batch sample dflt r g x ps : sample_ok sample -> qr_insert_x qr_insert -> (0 < n)%N ->
  xtrace_x fuel A batch sample dflt r g = Some (Ok (x, ps)) ->
  [/\ size ps = n, xfin x = (A *m mat_of_cols n ps \in unitmx) & ~~ xfin x -> x = NaN].
Proof.
move=> ok qrP n0 /(xtrace_xE ok) [st [hs hk /(_ qrP) hg -> ->]].
have sz : size (xt_probes st) = n := hk.
have kp : (0 < xtk st)%N by rewrite hk.
have sv : size (xtvals st) = xtk st by rewrite size_map size_enum_ord.
rewrite (xts_est hs kp); set X := [seq [:: y] | y <- xtvals st].
have sX : (0 < size X)%N by rewrite size_map sv.
have [h1 h2 h3 _] := xbatch_fin 0 sX.
have eX : LemNonFinite.xcol X 0 = xtvals st by rewrite /LemNonFinite.xcol -map_comp -[RHS]map_id; apply: eq_map.
rewrite eX in h1 h2 h3.
case: hg => [[gd gZ]|[_ _ [i hi eI] nl]].
  have u : A *m mat_of_cols n (xt_probes st) \in unitmx by apply/linv_state => //; exact: good_linv gd.
  have av : all (@xfin F) (xtvals st).
    apply/(all_nthP NaN) => j; rewrite sv => hj.
    case: gd => ri [[_ QQ QR RiR] _ hRi].
    by rewrite (nth_map (Ordinal hj)) ?size_enum_ord // (xhelper_fin _ _ _ _ hRi RiR).
  by rewrite u h1 av.
have nu : A *m mat_of_cols n (xt_probes st) \notin unitmx.
  by apply/negP => /(linv_state _ hk).
have hN : nth NaN (xtvals st) i = NaN.
  rewrite (nth_map (Ordinal hi)) ?size_enum_ord //; apply: xhelper_inf.
  by rewrite nth_enum_ord.
have si : (i < size (xtvals st))%N by rewrite size_map size_enum_ord.
have a1 : all (@xfin F) (xtvals st) = false by apply/negP => /(all_nthP NaN) /(_ i si); rewrite hN.
have a2 : all (fun y => xfin y || is_pinf y) (xtvals st) = false by apply/negP => /(all_nthP NaN) /(_ i si); rewrite hN.
have a3 : all (fun y => xfin y || is_ninf y) (xtvals st) = false by apply/negP => /(all_nthP NaN) /(_ i si); rewrite hN.
rewrite h1 a1 (negbTE nu); split=> // _; move: h1 h2 h3; rewrite a1 a2 a3 /=.
by case: (xbatch_mean X 0).
Qed.

(* and then it is the average of the leave-one-out estimates *)
Theorem C106_value fuel A batch sample dflt r g x ps (P : 'I_n -> 'M[F]_n) :
  sample_ok sample -> qr_insert_x qr_insert -> (0 < n)%N ->
  xtrace_x fuel A batch sample dflt r g = Some (Ok (x, ps)) ->
  let W := mat_of_cols n ps in
  A *m W \in unitmx -> (forall i, loo_projector (A *m W) i (P i)) ->
  x = Fin (avg [seq loo_estimate A (P i) (col i W) | i <- enum 'I_n]).
Proof.
move=> ok qrP n0 /(xtrace_xE ok) [st [hs hk /(_ qrP) hg -> ->]] W u hP.
have sz : size (xt_probes st) = n := hk.
have kp : (0 < xtk st)%N by rewrite hk.
have sv : size (xtvals st) = xtk st by rewrite size_map size_enum_ord.
rewrite (xts_est hs kp); set X := [seq [:: y] | y <- xtvals st].
have sX : (0 < size X)%N by rewrite size_map sv.
have [_ _ _ h4] := xbatch_fin 0 sX.
have eX : LemNonFinite.xcol X 0 = xtvals st by rewrite /LemNonFinite.xcol -map_comp -[RHS]map_id; apply: eq_map.
rewrite eX in h4.
case: hg => [[[ri [[_ QQ QR RiR] _ hRi]] gZ]|[_ _ _ nl]]; last first.
  by case: nl; apply/linv_state.
pose t := xtrace_helper (to_mx n (xtk st) (xt_W st)) (to_mx n (xtk st) (xt_Z st)) (to_mx n (xtk st) (xf_Q (xt_fac st)))
  (to_mx (xtk st) (xtk st) (xf_R (xt_fac st))) (to_mx (xtk st) (xtk st) ri) VFun.
have ev : xtvals st = [seq Fin (t i 0) | i <- enum 'I_(xtk st)].
  by apply: eq_map => i; rewrite (xhelper_fin _ _ _ _ hRi RiR).
rewrite h4; last by rewrite ev all_map; apply/allP.
congr Fin; rewrite /avg size_map sv [in RHS]size_map size_enum_ord hk; congr (_ / _).
rewrite ev big_map /= [in RHS]big_map /t {t ev}; move: (xts_W hs) gZ QQ QR RiR; rewrite /xtY hk -mul_mat_of_cols ?sz //.
move=> hW gZ QQ QR RiR; apply: eq_bigr => i _ /=; rewrite gZ hW; exact: C36_helper_leave_one_out.
Qed.

Theorem C106_returns fuel A batch sample dflt r g : sample_ok sample -> 1 <= batch ->
  (forall k (Q : 'M[F]_(n, k)) R u, exists p, qr_insert Q R u = Ok p) -> (ceil_div n `|batch| < fuel)%N ->
  exists x ps, xtrace_x fuel A batch sample dflt r g = Some (Ok (x, ps)).
Proof.
move=> ok hb qok hf; rewrite /ModelXtraceNonFinite.xtrace_x hb /=.
have b0 : (0 < `|batch|)%N by rewrite absz_gt0 gt_eqF // (lt_le_trans ltr01).
have eb : batch = `|batch|%N%:Z by rewrite gtz0_abs // (lt_le_trans ltr01).
rewrite {1}eb; have [|st ->] := @xt_returns F G tppf zq n qr_insert A _ sample r g ok b0 dflt fuel qok.
  by rewrite /remaining subn0.
by eexists; eexists.
Qed.

(* samplers that read a stream, like the built-in ones: if the products of the first n vectors are independent
   xtrace returns, whether or not qr_insert raises on dependent columns *)
Theorem C106_independent_returns fuel A batch sample dflt r g : sample_ok sample -> 1 <= batch -> split_ok sample ->
  sample 0%N g = ([::], g) -> qr_insert_x qr_insert -> A *m mat_of_cols n (sample n g).1 \in unitmx ->
  (ceil_div n `|batch| < fuel)%N ->
  exists x, xtrace_x fuel A batch sample dflt r g = Some (Ok (x, (sample n g).1)).
Proof.
move=> ok hb sok s0 qrP u hf; rewrite /ModelXtraceNonFinite.xtrace_x hb /=.
have b0 : (0 < `|batch|)%N by rewrite absz_gt0 gt_eqF // (lt_le_trans ltr01).
have eb : batch = `|batch|%N%:Z by rewrite gtz0_abs // (lt_le_trans ltr01).
have hl : linv n [seq A *m v | v <- (sample n g).1] by apply/linv_unit => //; exact: ok.
rewrite {1}eb; have [|st [-> <-]] := @xt_independent F G tppf zq n qr_insert A _ sample r g ok b0 dflt fuel sok s0 qrP hl.
  by rewrite /remaining subn0.
by eexists.
Qed.

(* their probes are those first n vectors, whatever the batch size *)
Theorem C106_probes fuel A batch sample dflt r g x ps : sample_ok sample -> split_ok sample -> sample 0%N g = ([::], g) ->
  xtrace_x fuel A batch sample dflt r g = Some (Ok (x, ps)) -> ps = (sample n g).1.
Proof.
move=> ok sok s0; rewrite /ModelXtraceNonFinite.xtrace_x; case: ifP => // /negbFE hb.
have b0 : (0 < `|batch|)%N by rewrite absz_gt0 gt_eqF // (lt_le_trans ltr01).
have eb : batch = `|batch|%N%:Z by rewrite gtz0_abs // (lt_le_trans ltr01).
rewrite {1}eb; case E: (while_not _ _ _ _) => [[st|]|] //= -[_ <-].
by have := @xt_stream F G tppf zq n qr_insert A _ sample r g ok b0 dflt fuel st sok s0 E.
Qed.

(* a singular matrix never gets a number *)
Theorem C106_singular fuel A batch sample dflt r g x ps : sample_ok sample -> qr_insert_x qr_insert -> (0 < n)%N ->
  A \notin unitmx -> xtrace_x fuel A batch sample dflt r g = Some (Ok (x, ps)) -> x = NaN.
Proof.
move=> ok qrP n0 nA h; have [_ e hx] := C106_finite_iff ok qrP n0 h; apply: hx.
by rewrite e unitmx_mul negb_and nA.
Qed.

(* nor does any matrix when one probe is a multiple of another *)
Theorem C106_repeated fuel A batch sample dflt r g x ps (i j : 'I_n) (c : F) : sample_ok sample -> qr_insert_x qr_insert ->
  i != j -> nth 0 ps i = c *: nth 0 ps j -> xtrace_x fuel A batch sample dflt r g = Some (Ok (x, ps)) -> x = NaN.
Proof.
move=> ok qrP ij e h; have n0 : (0 < n)%N by apply: leq_ltn_trans (ltn_ord i).
have [sz ex hx] := C106_finite_iff ok qrP n0 h; apply: hx; rewrite ex unitmx_mul negb_and; apply/orP; right.
rewrite -unitmx_tr; apply/negP => u; pose v : 'rV[F]_n := delta_mx 0 i - c *: delta_mx 0 j.
have vM : v *m (mat_of_cols n ps)^T = 0.
  rewrite mulmxBl -scalemxAl -!rowE -!tr_col !col_mat_of_cols e.
  by apply/matrixP => a b; rewrite !mxE subrr.
have : v = 0 by rewrite -[v]mulmx1 -(mulmxV u) mulmxA vM mul0mx.
by move/matrixP/(_ 0 i); rewrite !mxE !eqxx /= (negbTE ij) mulr0 subr0 => /eqP; rewrite oner_eq0.
Qed.
End Runs.

(* ---- oracles that meet qr_insert_x --------------------------------------------- *)
Section Oracles.
Variable F : rcfType.
Variable n : nat.
Definition gs_total k (Q : 'M[F]_(n, k)) (R : 'M[F]_k) (u : 'cV[F]_n) : res ('M[F]_(n, k + 1) * 'M[F]_(k + 1)) :=
  Ok (gs_insert Q R u).
Definition gs_raise k (Q : 'M[F]_(n, k)) (R : 'M[F]_k) (u : 'cV[F]_n) : res ('M[F]_(n, k + 1) * 'M[F]_(k + 1)) :=
  if u == Q *m (Q^T *m u) then Err LinAlgError else Ok (gs_insert Q R u).

Lemma gs_total_x : qr_insert_x gs_total.
Proof.
move=> k Q R u QQ; split=> [hu|e Q' R' [_ <-]].
  by have [h1 h2 h3] := gs_insert_ok R QQ hu; eexists; eexists; split; [reflexivity|exact: h1|exact: h2|exact: h3].
by rewrite block_mxEdr -e subrr mxE eqxx /dt mulmx0 mxE sqrtr0.
Qed.

Lemma gs_raise_x : qr_insert_x gs_raise.
Proof.
move=> k Q R u QQ; split=> [hu|e Q' R'].
  rewrite /gs_raise (negbTE hu).
  by have [h1 h2 h3] := gs_insert_ok R QQ hu; eexists; eexists; split; [reflexivity|exact: h1|exact: h2|exact: h3].
by rewrite /gs_raise -e eqxx.
Qed.
End Oracles.

(* ---- the claim fails: a positive semidefinite matrix of trace 1 ------------------ *)
Section Refuted.
Variable F : rcfType.

Lemma corner_singular n : (1 < n)%N -> forall i : 'I_n, (delta_mx i i : 'M[F]_n) \notin unitmx.
Proof.
move=> n1 i; apply/negP => u; have [j ji] : exists j : 'I_n, j != i.
  case: (eqVneq (nat_of_ord i) 0%N) => h.
    by exists (Ordinal n1); rewrite -val_eqE /= h.
  have n0 : (0 < n)%N by lia.
  by exists (Ordinal n0); rewrite -val_eqE /= eq_sym.
have : (delta_mx 0 j : 'rV[F]_n) = 0.
  rewrite -[LHS]mulmx1 -(mulmxV u) mulmxA mul_delta_mx_0 ?mul0mx //.
by move/matrixP/(_ 0 j); rewrite !mxE !eqxx => /eqP; rewrite oner_eq0.
Qed.

Theorem C106_singular_refuted n : (1 < n)%N -> exists A : 'M[F]_n,
  [/\ A^T = A, forall v : 'cV[F]_n, 0 <= (v^T *m A *m v) 0 0, \tr A = 1 &
   forall G tppf zq (sample : sampler F G n) qr_insert fuel batch dflt r g,
     sample_ok sample -> 1 <= batch -> qr_insert_x qr_insert ->
     (forall k (Q : 'M[F]_(n, k)) R u, exists p, qr_insert k Q R u = Ok p) -> (ceil_div n `|batch| < fuel)%N ->
     exists ps, xtrace_x tppf zq qr_insert fuel A batch sample dflt r g = Some (Ok (NaN, ps))].
Proof.
move=> n1; have n0 : (0 < n)%N by lia.
pose i := Ordinal n0; exists (delta_mx i i); split.
- by rewrite trmx_delta.
- move=> v; rewrite -(mul_delta_mx (0 : 'I_1) i i) !mulmxA -mulmxA -rowE mxE big_ord_recl big_ord0 addr0.
  by rewrite -colE !mxE -expr2 sqr_ge0.
- rewrite /mxtrace (bigD1 i) //= mxE eqxx big1 ?addr0 // => j ji; by rewrite mxE (negbTE ji).
move=> G tppf zq sample qr fuel batch dflt r g ok hb qrP qok hf.
have [x [ps e]] := C106_returns tppf zq (delta_mx i i) dflt r g ok hb qok hf; exists ps.
by rewrite e; congr (Some (Ok (_, _))); exact: C106_singular ok qrP n0 (corner_singular n1 i) e.
Qed.

(* sign probes in two dimensions: a number unless the second probe is plus or minus the first *)
Theorem C106_sign_pairs G tppf zq (sample : sampler F G 2) qr_insert fuel (A : 'M[F]_2) batch dflt r g x ps :
  sample_ok sample -> qr_insert_x qr_insert ->
  xtrace_x tppf zq qr_insert fuel A batch sample dflt r g = Some (Ok (x, ps)) ->
  (forall k i, (k < 2)%N -> nth 0 ps k i 0 = 1 \/ nth 0 ps k i 0 = -1) ->
  xfin x = (A \in unitmx) && (nth 0 ps 1 != nth 0 ps 0) && (nth 0 ps 1 != - nth 0 ps 0).
Proof.
move=> ok qrP h hs; have [_ -> _] := C106_finite_iff ok qrP isT h; rewrite unitmx_mul -andbA; congr (_ && _).
set p := nth 0 ps 0; set q := nth 0 ps 1.
have e2 : (2%:R : F) != 0 by rewrite pnatr_eq0.
have d2 : \det (mat_of_cols 2 ps) = p 0 0 * q 1 0 - q 0 0 * p 1 0.
  rewrite (expand_det_row _ 0) !big_ord_recl big_ord0 /cofactor !det_mx11 !mxE /= /bump /= -/p -/q.
  by have -> : lift (0 : 'I_2) 0 = 1 by [apply: val_inj]; rewrite !addn0 expr0 expr1; ring.
have cE (v : 'cV[F]_2) : (q == v) = (q 0 0 == v 0 0) && (q 1 0 == v 1 0).
  apply/eqP/andP => [->|[/eqP h0 /eqP h1]]; first by [].
  by apply/colP => -[[|[|//]] hj]; [rewrite (_ : Ordinal _ = 0)|rewrite (_ : Ordinal _ = 1)] => //; apply: val_inj.
rewrite unitmxE unitfE d2 !cE ![(- p) _ _]mxE.
have n1 : (-1 == 1 :> F) = false by rewrite -subr_eq0 -opprD oppr_eq0 -(natrD _ 1 1) pnatr_eq0.
have n2 : (1 == -1 :> F) = false by rewrite eq_sym n1.
have two : (1 + 1 == 0 :> F) = false by rewrite -(natrD _ 1 1) pnatr_eq0.
have two' : (-1 - 1 == 0 :> F) = false by rewrite -opprD oppr_eq0 two.
case: (hs 0%N 0 isT) => ->; case: (hs 0%N 1 isT) => ->; case: (hs 1%N 0 isT) => ->; case: (hs 1%N 1 isT) => ->;
  by rewrite ?mulr1 ?mul1r ?mulrN1 ?mulN1r ?opprK ?subrr ?addNr ?n1 ?n2 ?two ?two' ?eqxx.
Qed.
End Refuted.

(* ---- xdiag: np.linalg.inv raises instead ----------------------------------------- *)
Section Xdiag.
Variable F : rcfType.
Variables (G : Type) (n : nat).
Variable qr : forall k, 'M[F]_(n, k) -> 'M[F]_(n, k) * 'M[F]_k.

Theorem C106_xdiag_singular (A : 'M[F]_n) (m : option int) (sample : sampler F G n) g :
  (let: (Q, R) := qr (A *m mat_of_cols n (sample n g).1) in Q^T *m Q = 1%:M /\ Q *m R = A *m mat_of_cols n (sample n g).1) ->
  (if m is Some x then n%:Z * 2 - 1 <= x else true) -> A \notin unitmx -> (0 < n)%N ->
  xdiag_run qr A m sample g = Err LinAlgError.
Proof.
move=> hqr hm nA n0.
have em : xdiag_m n m = n%:Z by rewrite /xdiag_m; case: m hm => [x|] hm; lia.
rewrite /xdiag_run em /=.
move: hqr; case: (sample n g) => vs g' /=.
case: (qr _) => Q R [QQ QR]; case: ifP => // /negbFE uR; case/negP: nA.
have : A *m mat_of_cols n vs \in unitmx by rewrite -QR unitmx_mul uR andbT; case/mulmx1_unit: QQ.
by rewrite unitmx_mul => /andP[].
Qed.
End Xdiag.

(* ---- instances ---------------------------------------------------------------------- *)
Section Example.
Variable F : rcfType.
Definition ones_sampler : sampler F nat 2 := fun k g => (nseq k (const_mx 1), (g + k)%N).
Definition eye2 : sampler F nat 2 := fun k g => ([seq delta_mx (inord (j %% 2)) 0 | j <- iota g k], (g + k)%N).

Lemma eye2_ok : sample_ok eye2 /\ split_ok eye2.
Proof.
split=> [k g|i j g]; first by rewrite /= size_map size_iota.
by rewrite /eye2 /= iotaD map_cat addnA.
Qed.

Lemma eye2_N : mat_of_cols 2 (eye2 2%N 0%N).1 = 1%:M :> 'M[F]_2.
Proof.
apply/matrixP => i j; rewrite mxE /=; case: j => [[|[|//]] hj] /=; rewrite !mxE eqxx andbT; congr (_%:R);
  by case: i => [[|[|//]] hi]; rewrite -val_eqE /= inordK.
Qed.

(* the identity, the same sign vector twice: nan *)
Example repeated_nan tppf zq dflt r : exists ps,
  xtrace_x tppf zq (@gs_total F 2) 3 1%:M 1 ones_sampler dflt r 0%N = Some (Ok (NaN, ps)).
Proof.
have ok : sample_ok ones_sampler by move=> k g; rewrite /= size_nseq.
have sok : split_ok ones_sampler by move=> i j g; rewrite /ones_sampler /= nseqD addnA.
have qok k (Q : 'M[F]_(2, k)) R u : exists p, gs_total Q R u = Ok p by eexists.
have [x [ps e]] := C106_returns tppf zq (1%:M : 'M[F]_2) dflt r 0%N (batch := 1) (fuel := 3) ok isT qok isT.
have eps := C106_probes ok sok erefl e; exists ps; rewrite e; congr (Some (Ok (_, _))).
apply: (C106_repeated (i := 0) (j := 1) (c := 1) ok (@gs_total_x F 2) _ _ e) => //.
by rewrite eps /= scale1r.
Qed.

(* the identity and the unit vectors: a number, also when qr_insert raises on dependent columns *)
Example independent_finite tppf zq dflt r : exists x,
  xtrace_x tppf zq (@gs_raise F 2) 3 1%:M 1 eye2 dflt r 0%N = Some (Ok (x, (eye2 2%N 0%N).1)) /\ xfin x.
Proof.
have [ok sok] := eye2_ok; have u : (1%:M : 'M[F]_2) *m mat_of_cols 2 (eye2 2%N 0%N).1 \in unitmx by rewrite eye2_N mulmx1 unitmx1.
have [x e] := C106_independent_returns tppf zq dflt r (batch := 1) (fuel := 3) ok isT sok erefl (@gs_raise_x F 2) u isT.
by exists x; split=> //; have [_ -> _] := C106_finite_iff ok (@gs_raise_x F 2) isT e.
Qed.

(* xdiag on the zero matrix *)
Example xdiag_zero : xdiag_run (@tri_qr F) 0 None (@eye_sampler F) 0%N = Err LinAlgError.
Proof.
by apply: C106_xdiag_singular => //; [exact: (xdiag_fails F).2|rewrite unitmxE det0 // unitr0].
Qed.
End Example.

Print Assumptions C106_finite_iff.
Print Assumptions C106_value.
Print Assumptions C106_returns.
Print Assumptions C106_independent_returns.
Print Assumptions C106_probes.
Print Assumptions C106_singular.
Print Assumptions C106_repeated.
Print Assumptions C106_singular_refuted.
Print Assumptions C106_sign_pairs.
Print Assumptions C106_xdiag_singular.
