(* Property C61 (functions that are not finite everywhere); refutations of C61 and C62. *)
From Coq Require Import String.
From mathcomp Require Import all_ssreflect all_algebra zify ring.
From Verif Require Import Base ModelXtrace LemXtrace ModelTyping ModelLanczos LemLanczos SpecLanczos LemLanczos2 LemLanczos3 LemLanczos4
  ModelTqli ModelQuadrature ModelSpecial ModelOperators SpecTridiag SpecQuad SpecOperators LemSpectral LemQuad PropQuad
  PropOperators LemOperators LemOperators2 PropMatFun.
Set Implicit Arguments.
Unset Strict Implicit.
Unset Printing Implicit Defensive.
Import Order.TTheory GRing.Theory Num.Theory.
Local Open Scope string_scope.
Local Open Scope ring_scope.

Section P.
Variable F : rcfType.
Variables (eps : F) (fexp flog : F -> F) (feps : F).
Hypothesis eps0 : 0 <= eps.
Variable lv : seq F -> seq F -> res (seq F).
Variable lp : seq F -> seq F -> res (seq F * seq (seq F)).
Hypothesis lapack : lapack_ok lv lp.

(* ---- sums of extended numbers ------------------------------------------------------- *)
Lemma xsum_nan (s : seq (xnum F)) j : (j < size s)%N -> nth (Fin 0) s j = NaN -> xsum s = NaN.
Proof.
elim: s j => [//|y s IH] [|j] /= h e; first by rewrite e.
by rewrite -/(xsum s) (IH j) //; case: y.
Qed.

Lemma xsum_fins (s : seq (xnum F)) : (forall j, (j < size s)%N -> exists z, nth (Fin 0) s j = Fin z) -> exists z, xsum s = Fin z.
Proof.
elim: s => [|y s IH] h; first by exists 0.
have [z Ez] := IH (fun j hj => h j.+1 hj); have [u /= Eu] := h 0%N isT.
by exists (u + z); rewrite /= -/(xsum s) Ez Eu.
Qed.

(* ---- eigenvalues of a compression; kernels of the padded matrix ----------------------- *)
Lemma eig_col k (T : 'M[F]_k) w Y (j : 'I_k) : is_eigh T w Y ->
  let y := col j (rows_mx k k Y) in y^T *m y = 1%:M /\ T *m y = w`_j *: y.
Proof.
case=> _ _ _ oY eY y; split.
  have -> : y^T *m y = \matrix_(a, b) ((rows_mx k k Y)^T *m rows_mx k k Y) j j.
    by apply/matrixP => a b; rewrite !mxE; apply: eq_bigr => i _; rewrite !mxE.
  by rewrite oY; apply/matrixP => a b; rewrite !ord1 !mxE eqxx.
have -> : T *m y = col j (T *m rows_mx k k Y) by rewrite col_mul.
by rewrite eY; apply/colP => i; rewrite mul_mx_diag !mxE mulrC.
Qed.

Lemma ritz_bounds n k (A : 'M[F]_n) (Q : 'M[F]_(n, k)) (a b : F) w Y : Q^T *m Q = 1%:M ->
  is_eigh (Q^T *m A *m Q) w Y -> (forall y : 'cV[F]_n, a * qform 1%:M y <= qform A y <= b * qform 1%:M y) ->
  forall t, t \in w -> a <= t <= b.
Proof.
move=> QQ eig hA t /(nthP 0)[j jw <-]; have [sw _ _ _ _] := eig; rewrite sw in jw.
have [y1 y2] := eig_col (Ordinal jw) eig; set y := col _ _ in y1 y2.
have := hA (Q *m y); rewrite /qform trmx_mul mulmx1 !mulmxA.
have -> : y^T *m Q^T *m Q *m y = 1%:M by rewrite -(mulmxA y^T) QQ mulmx1.
have -> : y^T *m Q^T *m A *m Q *m y = (w`_j)%:M.
  have -> : y^T *m Q^T *m A *m Q *m y = y^T *m (Q^T *m A *m Q *m y) by rewrite !mulmxA.
  by rewrite y2 -scalemxAr y1 scalemx1.
by rewrite !mxE !mulr1.
Qed.

Lemma pad_kernel n k s (A : 'M[F]_n) (Q : 'M[F]_(n, s)) (d e d' e' : nat -> F) w Y (i0 : 'I_k) :
  A \in unitmx -> Q^T *m Q = 1%:M -> A *m Q = Q *m jacobi s d' e' -> i0 = 0%N :> nat -> (0 < s < k)%N ->
  (forall i, (i < s)%N -> d i = d' i) -> (forall i, (i < s)%N -> e i = e' i) ->
  (forall i, (s <= i)%N -> d i = 0 /\ e i = 0) ->
  is_eigh (jacobi k d e) w Y -> exists j : 'I_k, w`_j = 0 /\ (nth [::] Y 0)`_j = 0.
Proof.
move=> uA QQ AQ h0 /andP[s0 sk] hd he hz eig; have [sw sY aY oY eY] := eig.
have [j wj] : exists j : 'I_k, w`_j = 0.
  have kp : (k.-1 < k)%N by lia.
  pose u : 'cV[F]_k := delta_mx (Ordinal kp) 0; have Tu : jacobi k d e *m u = 0.
    rewrite -colE; apply/colP => i; rewrite !mxE /=; have hi := ltn_ord i.
    have [] := hz k.-1; first by lia.
    move=> z1 z2; case: eqP => [->//|ne]; case: eqP => [_|_]; first by rewrite z2.
    by case: eqP => // h; lia.
  have oY' := mulmx1C oY.
  pose c := (rows_mx k k Y)^T *m u; have c0 : c != 0.
    apply/eqP => c0; have : rows_mx k k Y *m c = u by rewrite mulmxA oY' mul1mx.
    rewrite c0 mulmx0 => /colP/(_ (Ordinal kp)); rewrite !mxE !eqxx /= => /eqP.
    by rewrite eq_sym oner_eq0.
  have Dc : diag_mx (\row_j w`_j) *m c = 0.
    have -> : diag_mx (\row_j w`_j) = (rows_mx k k Y)^T *m (jacobi k d e *m rows_mx k k Y) by rewrite eY mulmxA oY mul1mx.
    by rewrite /c -!mulmxA (mulmxA (rows_mx k k Y)) oY' mul1mx Tu mulmx0.
  clearbody c; case/cV0Pn: c0 => j cj; exists j; move/colP: Dc => /(_ j); rewrite mul_diag_mx !mxE => /eqP.
  by rewrite mulf_eq0 (negbTE cj) orbF => /eqP.
exists j; split=> //; have [_ Ty] := eig_col j eig; move: Ty; set y := col j _; rewrite wj scale0r => Ty.
have JE : jacobi k d e *m emb F k s = emb F k s *m jacobi s d' e'.
  exact: (@jac_emb F k s d e d' e' (ltnW sk) hd he (fun _ => (hz s (leqnn s)).2) i0 (Ordinal s0) h0 erefl).
pose z := (emb F k s)^T *m y.
have Tz : jacobi s d' e' *m z = 0.
  have : (emb F k s)^T *m (jacobi k d e *m y) = 0 by rewrite Ty mulmx0.
  by rewrite mulmxA -{1}(jacobi_sym k d e) -trmx_mul JE trmx_mul jacobi_sym -mulmxA.
have z0 : z = 0.
  have Az : A *m (Q *m z) = 0 by rewrite mulmxA AQ -mulmxA Tz mulmx0.
  have Qz : Q *m z = 0 by rewrite -[Q *m z](mulKmx uA) Az mulmx0.
  by rewrite -[z]mul1mx -QQ -mulmxA Qz mulmx0.
move/colP: z0 => /(_ (Ordinal s0)); rewrite !mxE (bigD1 i0) //= big1 ?addr0 => [|l li].
  by rewrite !mxE h0 eqxx mul1r.
rewrite !mxE (_ : (l == 0%N :> nat) = false) ?mul0r //; apply/negbTE; apply: contra li => /eqP e0; apply/eqP/val_inj.
exact: etrans e0 (esym h0).
Qed.

Section A.
Variables (n : nat) (A : 'M[F]_n).
Hypothesis n0 : (0 < n)%N.
Hypothesis sA : A^T = A.
Variables (kd : okind) (dA : dty).
Local Notation mf_init := (mf_init fexp flog feps).
Local Notation mf_quad := (mf_quad eps lv lp A kd dA).
Local Notation mf_matvec := (mf_matvec eps lv lp A kd dA).
Local Notation tol := (Num.sqrt n%:R * (1 / 10%:R ^+ 8)).
Local Notation q0 x := ((vnorm (vec n x))^-1 *: vec n x).
Local Notation built := (built fexp flog feps n kd).
Local Notation after_calls := (after_calls eps lv lp A kd dA).

(* f applies g to every entry; g may be infinite or NaN *)
Definition xapplies (f : mfun F) (g : F -> xnum F) : Prop := forall xs, fvals (f xs) = [seq g t | t <- xs].

(* ---- C61 ----------------------------------------------------------------------------- *)
(* without an early stop the nodes lie between the bounds a, b of the spectrum of A *)
Theorem C61_finite M0 M x (g : F -> xnum F) (a b : F) : built M0 -> after_calls M0 M -> unstale M0 M ->
  size x = n -> vec n x != 0 -> xapplies (mf_fun M0) g ->
  stop_at A (q0 x) tol (mf_deg M0) (mf_deg M0) ->
  (forall y : 'cV[F]_n, a * qform 1%:M y <= qform A y <= b * qform 1%:M y) ->
  (forall t, a <= t <= b -> exists z, g t = Fin z) ->
  exists z, (mf_quad M [:: x]).1 = Ret [:: Fin z].
Proof.
move=> B C U sx v0 hf hs hA hg; have [W L S] := calls_ok eps0 n0 B C; have K := unstale_ok eps0 n0 B C U.
case: S => -[e1 e2] e3 _ _ _; rewrite -e3 in hs; rewrite -e2 in hf.
have [w [Y [[_ eig] E]]] := quad1_run lapack eps0 n0 sA dA W L K sx hs.
have ub := stop_ub n0 hs; have QQ := @QTQ F n A (q0 x) sA (start_unit v0) _ ub.
have TT := @QTAQ F n A (q0 x) sA (start_unit v0) _ ub.
have ET : mfT (mf_after A M x (mf_deg M)) = jacobi (mf_deg M) (la A (q0 x)) (lb A (q0 x)).
  by apply: jacobi_ext => i hi; [exact: (after_al W hs hi)|apply: (after_be W hs); case/andP: hi => _ /ltnW].
rewrite ET -TT in eig; have [sw sY aY _ _] := eig; have /andP[d0 _] := wf_deg W.
have sy : size (nth [::] Y 0) = mf_deg M by move/allP: aY => /(_ _ (mem_nth _ _))/eqP -> //; rewrite sY.
have hw := ritz_bounds QQ eig hA.
rewrite /= E /quad_value hf /np_mul !size_map sw sy eqxx.
set v := [seq xmul p.1 p.2 | p <- _].
have [|z ->] := @xsum_fins v; last by exists (z * vnorm (cvec n x) ^+ 2).
rewrite /v size_map size_zip !size_map sw sy minnn => j hj.
rewrite (nth_map (Fin 0, Fin 0)) ?size_zip ?size_map ?sw ?sy ?minnn // nth_zip ?size_map ?sw ?sy //=.
have jw : (j < size w)%N by rewrite sw.
rewrite !(nth_map 0) ?sy //; have [z ->] := hg w`_j (hw _ (mem_nth _ jw)).
by exists (z * (nth [::] Y 0)`_j ^+ 2).
Qed.

(* ... otherwise not: the inverse of an invertible matrix, after an exact early stop *)
Definition xinv (t : F) : xnum F := xdiv (Fin 1) (Fin t).

Theorem C61_inverse_refuted M0 x s : built M0 -> size x = n -> vec n x != 0 ->
  xapplies (mf_fun M0) xinv -> A \in unitmx ->
  stop_at A (q0 x) tol (mf_deg M0) s -> (s < mf_deg M0)%N -> lb A (q0 x) s = 0 ->
  (mf_quad M0 [:: x]).1 = Ret [:: NaN] /\ (mf_matvec M0 x).1 = Ret (nseq n NaN).
Proof.
move=> B sx v0 hf uA hs sd hl; have [W L Z] := built_ok eps0 n0 B; have /andP[d0 _] := wf_deg W.
have C0 : mf_clean M0 by right.
have ub := stop_ub n0 hs; have QQ := @QTQ F n A (q0 x) sA (start_unit v0) _ ub.
have /andP[s0 _] : (0 < s <= mf_deg M0)%N by case: hs.
have AQ : A *m Qm A (q0 x) s = Qm A (q0 x) s *m jacobi s (la A (q0 x)) (lb A (q0 x)).
  apply/matrixP => i j; have /colP/(_ i) := A_Qm (k := s) ub j.
  have -> : (j.+1 == s)%:R *: lr A (q0 x) j = 0.
    case: eqP => [ej|_]; last by rewrite scale0r.
    by apply/eqP; rewrite scale1r -vnorm_eq0 -lbS ej hl.
  by rewrite addr0 -!col_mul !mxE.
have KE M' (w : seq F) Y : mf_alpha M' = nseq (mf_deg M0).+1 0 -> mf_beta M' = nseq (mf_deg M0).+1 0 -> mf_deg M' = mf_deg M0 -> mf_wf n M' ->
    is_eigh (mfT (mf_after A M' x s)) w Y -> exists j : 'I_(mf_deg M0), w`_j = 0 /\ (nth [::] Y 0)`_j = 0.
  move=> ea eb ed W' eig; rewrite -ed in hs sd d0 *.
  apply: (pad_kernel (i0 := Ordinal d0) uA QQ AQ _ _ _ _ _ eig) => //; first by rewrite s0.
  - by move=> i hi; rewrite (after_al W' hs).
  - by move=> i hi; rewrite (after_be W' hs) // ltnW.
  move=> i hi; split.
    rewrite /= ea; have [h|h] := ltnP i (mf_deg M0).+1; last by rewrite nth_default // size_mkseq size_nseq.
    by rewrite nth_mkseq ?size_nseq // nth_nseq h ltnNge hi.
  rewrite /= eb; have [h|h] := ltnP i (mf_deg M0).+1; last by rewrite nth_default // size_mkseq size_nseq.
  rewrite nth_mkseq ?size_nseq // nth_nseq h; case: ifP => // h'.
  by have -> : i = s by lia.
have [o [f [kw [deg [orth [dt [sq E0 _ _]]]]]]] := B.
have [_ _ [ea eb] _ _] := C62_fields sq E0.
have nan0 : xmul (xinv 0) (Fin 0) = NaN by rewrite /xinv /= eqxx /xinf_of_sign oner_eq0 ltr01 /= /xinf_of_sign eqxx.
split.
  have [w [Y [[_ eig] E]]] := quad1_run lapack eps0 n0 sA dA W L C0 sx hs.
  have [j [wj yj]] := KE M0 w Y ea eb erefl W eig; have [sw sY aY _ _] := eig.
  have sy : size (nth [::] Y 0) = mf_deg M0 by move/allP: aY => /(_ _ (mem_nth _ _))/eqP -> //; rewrite sY.
  rewrite /= E /quad_value hf /np_mul !size_map sw sy eqxx (@xsum_nan _ j) //=.
    by rewrite size_map size_zip !size_map sw sy minnn.
  rewrite (nth_map (Fin 0, Fin 0)) ?size_zip ?size_map ?sw ?sy ?minnn // nth_zip ?size_map ?sw ?sy //=.
  by rewrite !(nth_map 0) ?sw ?sy // wj yj expr0n.
have [w [Y [[_ eig] ->]]] := matvec_run lapack eps0 n0 sA dA W L sx hs.
have [j [wj yj]] := KE (zero_Q M0) w Y ea eb erefl (zero_wf W) eig; have [sw sY aY _ _] := eig.
have sy : size (nth [::] Y 0) = mf_deg M0 by move/allP: aY => /(_ _ (mem_nth _ _))/eqP -> //; rewrite sY.
rewrite /= /matvec_value hf /np_mul !size_map sw sy eqxx size_map size_zip !size_map sw sy minnn eqxx; congr Ret.
apply: (@eq_from_nth _ (Fin 0)); rewrite size_mkseq ?size_nseq // => i hi; rewrite nth_nseq hi nth_mkseq //.
apply: (@xsum_nan _ j); rewrite ?size_mkseq // nth_mkseq //.
rewrite (nth_map (Fin 0, Fin 0)) ?size_zip ?size_map ?sw ?sy ?minnn // nth_zip ?size_map ?sw ?sy //=.
by rewrite !(nth_map 0) ?sw ?sy // wj yj nan0.
Qed.

(* ---- C62: dtypes other than float32 and float64 ---------------------------------------- *)
Lemma mf_resolve_other : exists bd, [/\ mf_resolve kd dA OtherDtype = Some bd, b_out bd = false & forall mv : bool,
  (mv \/ forall e, kd <> KObject e) -> (if (b_ov bd).2 is WObject then ~~ mv else false) = false].
Proof.
case: kd => [||e]; case: dA; eexists; split=> // mv; case=> [->|h] //; by case: (h e).
Qed.

Lemma kernel_some M x : mf_wf n M -> mf_clean M -> size x = n ->
  exists st, lanczos_recurrence eps A x (mf_deg M)%:Z (mf_rtol F) (mf_orth M) (mf_alpha M) (mf_beta M) (mf_Q M) (mf_deg M) = Some st.
Proof.
move=> W hc sx; have /andP[d0 dn] := wf_deg W.
have [s hs] := @stop_exists F n A (start (cvec n x)) (Num.sqrt n%:R * mf_rtol F) (mf_deg M) d0.
eexists; rewrite (@kernel_final F n A eps (mf_rtol F) (mf_deg M) (mf_orth M) (mf_deg M) x _ _ _ s) //.
- by clear -d0; lia.
- by split; rewrite ?(wf_Q W) ?(wf_al W) ?(wf_be W).
right; split=> //; first by move=> j i h1 h2; exact: (idle_lr n0 sA hs h1 h2).
case: hc => [|hc]; [by left|right=> c _; right].
apply/colP => i; rewrite !mxE; have [hi|hi] := ltnP (c * n + i) (size (mf_Q M)); last by rewrite nth_default.
by apply: hc; rewrite mem_nth.
Qed.

(* the constructor accepts them, but the native code then works on converted copies
   and the object's arrays stay zero: every product is 0 and quad is f(0) |x|^2 *)
Theorem C62_dtype_refuted o f kw deg orth M0 x (g : F -> F) :
  square_shape o n -> mf_init o f kw deg orth OtherDtype = Ok M0 -> o_matvec o \/ (forall e, kd <> KObject e) ->
  applies (mf_fun M0) g -> size x = n ->
  (mf_quad M0 [:: x]).1 = Ret [:: Fin (g 0 * qform 1%:M (vec n x))] /\ (mf_matvec M0 x).1 = Ret (nseq n (Fin 0)).
Proof.
move=> sq E0 hc hf sx.
have [_ dg _] := (C62_accepts_iff fexp flog feps o f kw deg orth OtherDtype).1 (ex_intro _ M0 E0).
have [[h1 h2] [h3 _] [ea eb] [en [ew eQ]] [ed [em _]]] := C62_fields sq E0.
have W : mf_wf n M0 by split; rewrite ?h1 ?ea ?eb ?en ?ew ?eQ ?size_nseq //; clear -h2 dg n0; lia.
have Q0 y : y \in mf_Q M0 -> y = 0 by rewrite eQ mem_nseq => /andP[_ /eqP].
have [bd [r1 r2 r3]] := mf_resolve_other.
have EL : mf_lanczos eps A kd dA M0 x = Ret M0.
  have [st Est] := kernel_some W (or_intror Q0) sx.
  by rewrite /mf_lanczos ed r1 em r3 // Est r2.
have ZQ : zero_Q M0 = M0.
  by clear -eQ; case: M0 eQ => *; simpl in *; rewrite /zero_Q /=; congr MF; subst; rewrite size_nseq.
have T0 : mfT M0 = 0.
  apply/matrixP => i j; rewrite !mxE ea eb !nth_nseq; do 3 (case: ifP => _; first by rewrite ?if_same).
  by [].
have P0 : polymx (g 0)%:P (mfT M0) = (g 0)%:M.
  rewrite /polymx size_polyC; case: eqP => [->|_]; first by rewrite big_ord0 raddf0.
  by rewrite big_ord1 coefC /= scalemx1.
have W0 w Y : is_eigh (mfT M0) w Y -> forall t, t \in w -> (g 0)%:P.[t] = g t.
  move=> eig t /(nthP 0)[j jw <-]; have [sw _ _ _ _] := eig; rewrite sw in jw.
  have [y1 y2] := eig_col (Ordinal jw) eig; move: y2; rewrite T0 mul0mx => /eqP.
  rewrite eq_sym scaler_eq0 => /orP[/eqP /= ->|/eqP y0]; first by rewrite hornerC.
  by move: y1; rewrite y0 mulmx0 => /matrixP/(_ 0 0); rewrite !mxE => /eqP; rewrite eq_sym oner_eq0.
have /andP[d0 _] := wf_deg W; split.
  have [|w [Y [[_ eig] E]]] := quad1_eval lapack eps0 n0 EL W _ sx; first by rewrite eb.
  rewrite /= E (@quad_value_poly _ _ M0 M0 x w Y g (g 0)%:P (Ordinal d0) erefl eig hf (W0 _ _ eig)) P0 mxE eqxx /=.
  by congr (Ret [:: Fin (_ * _)]); rewrite /qform mulmx1 vnorm_sq.
have EZ : mf_lanczos eps A kd dA (zero_Q M0) x = Ret M0 by rewrite ZQ EL.
have [w [Y [[_ eig] ->]]] := matvec_eval lapack eps0 n0 EZ W h1 sx.
rewrite (@matvec_value_poly _ _ M0 M0 x w Y g (g 0)%:P (Ordinal d0) erefl erefl eig hf (W0 _ _ eig)) //.
have -> : qmat n (mf_deg M0) (mf_Q M0) = 0.
  by apply/matrixP => i j; rewrite !mxE eQ nth_nseq if_same.
rewrite mul0mx scaler0; congr Ret; apply: (@eq_from_nth _ (Fin 0)); first by rewrite size_map size_cseq size_nseq.
rewrite size_map size_cseq => i hi; rewrite (nth_map 0) ?size_cseq // (nth_cseq _ (Ordinal hi)) mxE nth_nseq hi //.
Qed.
End A.
End P.

Print Assumptions C61_finite.
Print Assumptions C61_inverse_refuted.
Print Assumptions C62_dtype_refuted.
