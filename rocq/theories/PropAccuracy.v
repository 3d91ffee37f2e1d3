(* C91: how far MatrixFunction is from f(A), for any f.  C92: the sign of the
   error for the inverse. *)
From Coq Require Import String.
From mathcomp Require Import all_ssreflect all_algebra zify ring.
From Verif Require Import Base ModelXtrace LemXtrace ModelTyping ModelLanczos LemLanczos SpecLanczos LemLanczos2 LemLanczos3 LemLanczos4
  ModelTqli ModelQuadrature ModelSpecial ModelOperators SpecTridiag SpecQuad SpecOperators LemSpectral LemQuad PropQuad
  PropOperators LemOperators LemOperators2 PropMatFun PropMatFun2 PropMatFun3 PropMatFun4.
Set Implicit Arguments.
Unset Strict Implicit.
Unset Printing Implicit Defensive.
Import Order.TTheory GRing.Theory Num.Theory.
Local Open Scope string_scope.
Local Open Scope ring_scope.

Section P.
Variable F : rcfType.
Variables (eps : F) (fexp flog : F -> F) (feps : F).
Hypothesis eps0 : 0 <= eps.
Variable lv : seq F -> seq F -> res (seq F).
Variable lp : seq F -> seq F -> res (seq F * seq (seq F)).
Hypothesis lapack : lapack_ok lv lp.

(* the numerical range of A lies in D: for an interval D, all eigenvalues do *)
Definition range_in n (A : 'M[F]_n) (D : pred F) : Prop :=
  forall y : 'cV[F]_n, qform 1%:M y = 1 -> D (qform A y).

(* on arrays with entries in D, f applies g to every entry *)
Definition applies_on (D : pred F) (f : mfun F) (g : F -> F) : Prop :=
  forall xs, all D xs -> fvals (f xs) = [seq Fin (g t) | t <- xs].

(* ---- sums over a decomposition ----------------------------------------------------- *)
Lemma conj_form n k (U : 'M[F]_(n, k)) (e : 'rV[F]_k) (x : 'cV[F]_n) :
  qform (U *m diag_mx e *m U^T) x = \sum_j e 0 j * ((U^T *m x) j 0) ^+ 2.
Proof.
rewrite /qform; have -> : x^T *m (U *m diag_mx e *m U^T) *m x = (U^T *m x)^T *m diag_mx e *m (U^T *m x).
  by rewrite trmx_mul trmxK !mulmxA.
by rewrite mxE; apply: eq_bigr => j _; rewrite mul_mx_diag !mxE -!mulrA mulrCA expr2.
Qed.

Lemma col_range n (A U : 'M[F]_n) (l : 'rV[F]_n) D j : U^T *m U = 1%:M -> A *m U = U *m diag_mx l ->
  range_in A D -> D (l 0 j).
Proof.
move=> o e h; have y1 : (col j U)^T *m col j U = 1%:M.
  have -> : (col j U)^T *m col j U = \matrix_(a, b) (U^T *m U) j j.
    by apply/matrixP => a b; rewrite !mxE; apply: eq_bigr => i _; rewrite !mxE.
  by rewrite o; apply/matrixP => a b; rewrite !ord1 !mxE eqxx.
have := h (col j U); rewrite /qform mulmx1 y1 mxE => /(_ erefl).
have -> : (col j U)^T *m A *m col j U = (l 0 j)%:M; last by rewrite mxE mulr1n.
rewrite -mulmxA -col_mul e.
have -> : col j (U *m diag_mx l) = l 0 j *: col j U by apply/colP => i; rewrite mul_mx_diag !mxE mulrC.
by rewrite -scalemxAr y1 scalemx1.
Qed.

Lemma ritz_range n k (A : 'M[F]_n) (Q : 'M[F]_(n, k)) D w Y : Q^T *m Q = 1%:M ->
  is_eigh (Q^T *m A *m Q) w Y -> range_in A D -> all D w.
Proof.
move=> QQ eig hA; apply/(all_nthP 0) => j jw; have [sw _ _ _ _] := eig; rewrite sw in jw.
have [y1 y2] := eig_col (Ordinal jw) eig; set y := col _ _ in y1 y2.
have := hA (Q *m y); rewrite /qform trmx_mul mulmx1 !mulmxA.
have -> : y^T *m Q^T *m Q *m y = 1%:M by rewrite -(mulmxA y^T) QQ mulmx1.
have -> : y^T *m Q^T *m A *m Q *m y = (w`_j)%:M.
  have -> : y^T *m Q^T *m A *m Q *m y = y^T *m (Q^T *m A *m Q *m y) by rewrite !mulmxA.
  by rewrite y2 -scalemxAr y1 scalemx1.
by rewrite !mxE !mulr1n => /(_ erefl).
Qed.

(* values of f are only needed at the nodes *)
Lemma quad_value_on n (M : mfobj F) x w (Y : seq (seq F)) g k (T : 'M[F]_k) : (0 < k)%N -> is_eigh T w Y ->
  fvals (mf_fun M w) = [seq Fin (g t) | t <- w] ->
  quad_value n M x w (nth [::] Y 0) = Ret (Fin ((\sum_(j < k) (nth [::] Y 0)`_j ^+ 2 * g w`_j) * vnorm (cvec n x) ^+ 2)).
Proof.
move=> k0 eig h; have -> : quad_value n M x w (nth [::] Y 0) =
   quad_value n (MF (mf_n M) (fun xs => FVec true [seq Fin (g t) | t <- xs]) (mf_deg M) (mf_orth M) (mf_dt M) (mf_mv M)
     (mf_alpha M) (mf_beta M) (mf_nodes M) (mf_weights M) (mf_Q M)) x w (nth [::] Y 0) by rewrite /quad_value h.
exact: quad_value_ew eig _.
Qed.

Section A.
Variables (n : nat) (A : 'M[F]_n).
Hypothesis n0 : (0 < n)%N.
Hypothesis sA : A^T = A.
Variables (kd : okind) (dA : dty).
Local Notation mf_init := (mf_init fexp flog feps).
Local Notation mf_quad := (mf_quad eps lv lp A kd dA).
Local Notation mf_matvec := (mf_matvec eps lv lp A kd dA).
Local Notation tol := (Num.sqrt n%:R * (1 / 10%:R ^+ 8)).
Local Notation q0 x := ((vnorm (vec n x))^-1 *: vec n x).
Local Notation built := (built fexp flog feps n kd).
Local Notation after_calls := (after_calls eps lv lp A kd dA).

Lemma quad_core M0 M x D g : built M0 -> after_calls M0 M -> unstale M0 M -> size x = n -> vec n x != 0 ->
  stop_at A (q0 x) tol (mf_deg M0) (mf_deg M0) -> range_in A D -> applies_on D (mf_fun M0) g ->
  exists (w y : seq F), let N2 := vnorm (vec n x) ^+ 2 in
  [/\ (mf_quad M [:: x]).1 = Ret [:: Fin ((\sum_(j < mf_deg M0) y`_j ^+ 2 * g w`_j) * N2)],
      size w = mf_deg M0, all D w, \sum_(j < mf_deg M0) y`_j ^+ 2 = 1 &
      forall p : {poly F}, (size p <= (mf_deg M0).*2)%N ->
        (\sum_(j < mf_deg M0) y`_j ^+ 2 * p.[w`_j]) * N2 = qform (polymx p A) (vec n x)].
Proof.
move=> B C U sx v0 hs hD hg; have [W L S] := calls_ok eps0 n0 B C; have K := unstale_ok eps0 n0 B C U.
case: S => -[e1 e2] e3 _ _ _; rewrite -e3 in hs *; rewrite -e2 in hg.
have [w [Y [[_ eig] E]]] := quad1_run lapack eps0 n0 sA dA W L K sx hs.
have /andP[d0 _] := wf_deg W; have eig' : is_eigh (mfT (mf_after A M x (mf_deg M))) w Y := eig.
have ub := stop_ub n0 hs; have QQ := @QTQ F n A (q0 x) sA (start_unit v0) _ ub.
have TT := @QTAQ F n A (q0 x) sA (start_unit v0) _ ub.
have ET : mfT (mf_after A M x (mf_deg M)) = jacobi (mf_deg M) (la A (q0 x)) (lb A (q0 x)).
  by apply: jacobi_ext => i hi; [exact: (after_al W hs hi)|apply: (after_be W hs); case/andP: hi => _ /ltnW].
have eT := eig; rewrite ET -TT in eT; have [sw _ _ _ _] := eT.
have hw := ritz_range QQ eT hD.
exists w, (nth [::] Y 0); split=> //.
  by rewrite /= E (quad_value_on n x d0 eig' (hg _ hw)).
  exact: (row_unit (Ordinal d0) eig').
move=> p hp; have := quad_sum (Ordinal d0) p eig'; rewrite /= => <-.
by rewrite (run_quad eps0 n0 sA W hs) //; left.
Qed.

(* ---- C91 ---------------------------------------------------------------------------- *)
(* a polynomial of degree below 2 deg under f on the spectral range bounds both
   the returned number and the exact quadratic form from below *)
Theorem C91_minorant M0 M x D (g : F -> F) (B : 'M[F]_n) (p : {poly F}) :
  built M0 -> after_calls M0 M -> unstale M0 M -> size x = n -> vec n x != 0 ->
  stop_at A (q0 x) tol (mf_deg M0) (mf_deg M0) -> range_in A D -> applies_on D (mf_fun M0) g -> is_mxfun g A B ->
  (size p <= (mf_deg M0).*2)%N -> (forall t, D t -> p.[t] <= g t) ->
  exists z, (mf_quad M [:: x]).1 = Ret [:: Fin z] /\
    qform (polymx p A) (vec n x) <= z /\ qform (polymx p A) (vec n x) <= qform B (vec n x).
Proof.
move=> H C U sx v0 hs hD hg [V [l [o1 o2 o3]]] sp hp.
have [w [y [E sw aw y1 hq]]] := quad_core H C U sx v0 hs hD hg.
eexists; split; first exact: E; split.
  rewrite -hq // ler_wpmul2r ?sqr_ge0 // ler_sum // => j _; rewrite ler_wpmul2l ?sqr_ge0 // hp //.
  by apply: (allP aw); rewrite mem_nth // sw.
rewrite o3 (polymx_eig p o1 o2) !conj_form ler_sum // => j _; rewrite !mxE ler_wpmul2r ?sqr_ge0 //.
by apply: hp; exact: (col_range j o1 o2 hD).
Qed.

Lemma mxfun_opp (g : F -> F) (B : 'M[F]_n) : is_mxfun g A B -> is_mxfun (fun t => - g t) A (- B).
Proof.
move=> [V [l [o1 o2 ->]]]; exists V, l; split=> //; rewrite -mulNmx -mulmxN; congr (_ *m _ *m _).
by apply/matrixP => i j; rewrite !mxE mulNrn.
Qed.

Lemma qform_sub (B : 'M[F]_n) x (D : pred F) (g : F -> F) (p : {poly F}) (e : F) : is_mxfun g A B -> range_in A D ->
  (forall t, D t -> `|g t - p.[t]| <= e) -> `|qform (polymx p A) x - qform B x| <= e * vnorm x ^+ 2.
Proof.
move=> [V [l [o1 o2 o3]]] hD hp; rewrite o3 (polymx_eig p o1 o2) !conj_form -sumrB.
have nx : vnorm x ^+ 2 = \sum_j ((V^T *m x) j 0) ^+ 2.
  have -> : vnorm x ^+ 2 = dt (V^T *m x) (V^T *m x) by rewrite vnorm_sq -dtM mulmxA (mulmx1C o1) mul1mx.
  by rewrite dtE; apply: eq_bigr => j _; rewrite expr2.
rewrite nx big_distrr /=; apply: (le_trans (ler_norm_sum _ _ _)); apply: ler_sum => j _.
rewrite !mxE -mulrBl normrM [X in _ * X]ger0_norm ?sqr_ge0 // ler_wpmul2r ?sqr_ge0 // distrC.
by apply: hp; exact: (col_range j o1 o2 hD).
Qed.

(* the error is at most twice the distance of f from the polynomials of degree
   below 2 deg, times |x|^2 *)
Theorem C91_quad_error M0 M x D (g : F -> F) (B : 'M[F]_n) (p : {poly F}) (e : F) :
  built M0 -> after_calls M0 M -> unstale M0 M -> size x = n -> vec n x != 0 ->
  stop_at A (q0 x) tol (mf_deg M0) (mf_deg M0) -> range_in A D -> applies_on D (mf_fun M0) g -> is_mxfun g A B ->
  (size p <= (mf_deg M0).*2)%N -> (forall t, D t -> `|g t - p.[t]| <= e) ->
  exists z, (mf_quad M [:: x]).1 = Ret [:: Fin z] /\
    `|z - qform B (vec n x)| <= 2%:R * e * vnorm (vec n x) ^+ 2.
Proof.
move=> H C U sx v0 hs hD hg hB sp hp.
have [w [y [E sw aw y1 hq]]] := quad_core H C U sx v0 hs hD hg; eexists; split; first exact: E.
have h1 := qform_sub (vec n x) hB hD hp; have hq1 := hq _ sp.
set N := vnorm _ ^+ 2 in h1 hq1 *; set z := _ * N; have N0 : 0 <= N by exact: sqr_ge0.
have -> : z - qform B (vec n x) = (z - qform (polymx p A) (vec n x)) + (qform (polymx p A) (vec n x) - qform B (vec n x)) by ring.
apply: (le_trans (ler_norm_add _ _)); rewrite -mulrA [2%:R * _]mulrDl mul1r ler_add // -hq1 /z -mulrBl normrM -sumrB.
rewrite [X in _ * X]ger0_norm // ler_wpmul2r // (le_trans (ler_norm_sum _ _ _)) //.
rewrite -[X in _ <= X]mul1r -y1 big_distrl /=; apply: ler_sum => j _.
rewrite -mulrBr normrM ger0_norm ?sqr_ge0 // ler_wpmul2l ?sqr_ge0 //; apply: hp.
by apply: (allP aw); rewrite mem_nth // sw.
Qed.


Lemma dt_cs k (x y : 'cV[F]_k) : dt x y ^+ 2 <= dt x x * dt y y.
Proof.
have [/dt_eq0P ->|y0] := eqVneq (dt y y) 0; first by rewrite !dt0r expr0n mulr0.
have yp : 0 < dt y y by rewrite lt_neqAle eq_sym y0 dtge0.
have := dtge0 (dt y y *: x - dt x y *: y).
rewrite !dtBl !dtBr !dtZl !dtZr (dtC y x); set a := dt x y; set b := dt y y; set c := dt x x => h.
have : 0 <= b * (c * b - a ^+ 2) by move: h; rewrite /b /c /a; congr (0 <= _); ring.
by rewrite pmulr_rge0 // subr_ge0.
Qed.

Lemma vnormD k (x y : 'cV[F]_k) : vnorm (x + y) <= vnorm x + vnorm y.
Proof.
rewrite -ler_sqr ?nnegrE ?addr_ge0 ?vnorm_ge0 // sqrrD !vnorm_sq dtDl !dtDr (dtC y x).
have -> : dt x x + dt x y + (dt x y + dt y y) = dt x x + (dt x y) *+ 2 + dt y y by ring.
rewrite ler_add2r ler_add2l ler_pmuln2r //; apply: (le_trans (ler_norm _)).
by rewrite -ler_sqr ?nnegrE ?mulr_ge0 ?vnorm_ge0 // real_normK ?num_real // exprMn !vnorm_sq dt_cs.
Qed.

Lemma conj_norm k (V : 'M[F]_k) (h : 'rV[F]_k) (x : 'cV[F]_k) (e : F) : V^T *m V = 1%:M -> 0 <= e ->
  (forall j, `|h 0 j| <= e) -> vnorm (V *m diag_mx h *m V^T *m x) <= e * vnorm x.
Proof.
move=> o e0 he; rewrite -ler_sqr ?nnegrE ?mulr_ge0 ?vnorm_ge0 // exprMn !vnorm_sq.
have -> : dt x x = dt (V^T *m x) (V^T *m x) by rewrite -dtM mulmxA (mulmx1C o) mul1mx.
have -> : dt (V *m diag_mx h *m V^T *m x) (V *m diag_mx h *m V^T *m x) = dt (diag_mx h *m (V^T *m x)) (diag_mx h *m (V^T *m x)).
  by rewrite -!(mulmxA V) dtM !mulmxA o mul1mx.
rewrite !dtE big_distrr /=; apply: ler_sum => j _; rewrite mul_diag_mx !mxE -!expr2 exprMn ler_wpmul2r ?sqr_ge0 //.
by rewrite -real_normK ?num_real // ler_sqr ?nnegrE.
Qed.

Lemma matvec_value_on (M M' : mfobj F) x w (Y : seq (seq F)) p (i0 : 'I_(mf_deg M')) : i0 = 0%N :> nat -> mf_deg M' = mf_deg M ->
  is_eigh (mfT M') w Y -> fvals (mf_fun M w) = [seq Fin p.[t] | t <- w] ->
  matvec_value n M M' x w Y = Ret [seq Fin t | t <- cseq (vnorm (cvec n x) *:
     (qmat n (mf_deg M') (mf_Q M') *m (polymx p (mfT M') *m (delta_mx i0 0 : 'cV[F]_(mf_deg M')))))].
Proof.
move=> h0 dd eig h; have -> : matvec_value n M M' x w Y =
   matvec_value n (MF (mf_n M) (fun xs => FVec true [seq Fin p.[t] | t <- xs]) (mf_deg M) (mf_orth M) (mf_dt M) (mf_mv M)
     (mf_alpha M) (mf_beta M) (mf_nodes M) (mf_weights M) (mf_Q M)) M' x w Y by rewrite /matvec_value h.
set N := MF _ _ _ _ _ _ _ _ _ _ _.
by apply: (@matvec_value_poly F n N M' x w Y (fun t => p.[t]) p i0 h0 _ eig).
Qed.

(* the same for f(A) x, with polynomials of degree below deg *)
Theorem C91_matvec_error M0 M x D (g : F -> F) (B : 'M[F]_n) (p : {poly F}) (e : F) :
  built M0 -> after_calls M0 M -> size x = n -> vec n x != 0 ->
  stop_at A (q0 x) tol (mf_deg M0) (mf_deg M0) -> range_in A D -> applies_on D (mf_fun M0) g -> is_mxfun g A B ->
  (size p <= mf_deg M0)%N -> (forall t, D t -> `|g t - p.[t]| <= e) ->
  exists y : 'cV[F]_n, (mf_matvec M x).1 = Ret [seq Fin (y i 0) | i <- enum 'I_n] /\
    vnorm (y - B *m vec n x) <= 2%:R * e * vnorm (vec n x).
Proof.
move=> H C sx v0 hs hD hg [V [l [o1 o2 o3]]] sp hp; have [W L S] := calls_ok eps0 n0 H C.
case: S => -[e1 e2] e3 _ _ _; rewrite -e3 in hs sp; rewrite -e2 in hg.
have [w [Y [[_ eig] E]]] := matvec_run lapack eps0 n0 sA dA W L sx hs.
have /andP[d0 _] := wf_deg W; set M' := mf_after A (zero_Q M) x (mf_deg M) in eig E.
have eig' : is_eigh (mfT M') w Y := eig.
have ub := stop_ub n0 hs; have QQ := @QTQ F n A (q0 x) sA (start_unit v0) _ ub.
have TT := @QTAQ F n A (q0 x) sA (start_unit v0) _ ub.
have W0 := zero_wf W.
have ET : mfT M' = jacobi (mf_deg M) (la A (q0 x)) (lb A (q0 x)).
  by apply: jacobi_ext => i hi; [exact: (after_al W0 hs hi)|apply: (after_be W0 hs); case/andP: hi => _ /ltnW].
have eT := eig'; rewrite ET -TT in eT; have [sw _ _ _ _] := eT.
have hw := ritz_range QQ eT hD.
have [p' hp'] := interpolate g w.
have hf : fvals (mf_fun M w) = [seq Fin p'.[t] | t <- w].
  by rewrite hg //; apply/eq_in_map => t tw; rewrite hp'.
rewrite E (@matvec_value_on M M' x w Y p' (Ordinal d0) erefl erefl eig' hf) /cseq -map_comp.
eexists; split; first by [].
have e0 : 0 <= e by apply: le_trans (hp w`_0 _) => //; apply: (allP hw); rewrite mem_nth // sw.
set v := vec n x; set c := vnorm v; set i0 := Ordinal d0.
have R := @run_fun F eps eps0 n n0 A (zero_Q M) x (mf_deg M) W0 hs p i0 erefl (or_introl (conj erefl sp)).
set Z := _ *: _; have -> : Z - B *m v = (Z - polymx p A *m v) + (polymx p A *m v - B *m v).
  by apply/matrixP => i j; rewrite !mxE; ring.
apply: (le_trans (vnormD _ _)); rewrite -mulrA [2%:R * _]mulrDl mul1r ler_add //.
  rewrite -R /Z -scalerBr -mulmxBr vnormZ ger0_norm ?vnorm_ge0 // mulrC ler_wpmul2r ?vnorm_ge0 //.
  have qq : (qmat n (mf_deg M) (mf_Q M'))^T *m qmat n (mf_deg M) (mf_Q M') = 1%:M.
    have := after_Q (M := zero_Q M) hs; have -> : emb F (mf_deg (zero_Q M)) (mf_deg M) = 1%:M by apply/matrixP => i j; rewrite !mxE val_eqE.
    by rewrite mulmx1 => ->.
  have [_ _ _ oY eY] := eig'; set Y1 := rows_mx _ _ Y in oY eY.
  have nQ (u : 'cV[F]_(mf_deg M)) : vnorm (qmat n (mf_deg M) (mf_Q M') *m u) = vnorm u.
    by rewrite !vnormE dtM mulmxA qq mul1mx.
  rewrite nQ -mulmxBl -/M' (polymx_eig p' oY eY) (polymx_eig p oY eY) -mulmxBl -mulmxBr.
  have -> : diag_mx (\row_j p'.[(\row_j0 w`_j0) 0 j]) - diag_mx (\row_j p.[(\row_j0 w`_j0) 0 j]) =
     diag_mx (\row_j (p'.[w`_j] - p.[w`_j])) :> 'M[F]_(mf_deg M).
    by apply/matrixP => i j; rewrite !mxE mulrnBl.
  apply: (le_trans (conj_norm (e := e) _ oY e0 _)).
    move=> j; rewrite mxE; have wj : w`_j \in w by rewrite mem_nth // sw.
    by rewrite hp' // hp // (allP hw).
  rewrite vnormE dtE (bigD1 i0) //= big1 ?addr0 => [|i ii]; last by rewrite !mxE (negbTE ii) mul0r.
  by rewrite !mxE eqxx mulr1 sqrtr1 mulr1.
rewrite -mulmxBl o3 (polymx_eig p o1 o2) -mulmxBl -mulmxBr.
have -> : diag_mx (\row_j p.[l 0 j]) - diag_mx (\row_j g (l 0 j)) = diag_mx (\row_j (p.[l 0 j] - g (l 0 j))).
  by apply/matrixP => i j; rewrite !mxE mulrnBl.
apply: conj_norm => // j; rewrite mxE distrC; apply: hp; exact: (col_range j o1 o2 hD).
Qed.



(* ---- C92: the inverse of a positive definite matrix ----------------------------------- *)
Definition posdef (B : 'M[F]_n) : Prop := forall y : 'cV[F]_n, y != 0 -> 0 < qform B y.

(* fun="inv" *)
Theorem C92_builtin o kw deg orth d M0 : mf_init o (MStr "inv") kw deg orth d = Ok M0 ->
  applies_on (fun t => 0 < t) (mf_fun M0) (fun t => t^-1).
Proof.
rewrite /ModelOperators.mf_init; case: (is_linear_op o) => //= ok; case: ifP => // _; case: ifP => // _.
case: (fun_check _ _) => //= _ [<-] xs hxs /=; apply/eq_in_map => t /(allP hxs) t0.
by rewrite (gt_eqF t0) mul1r.
Qed.

(* the Hermite interpolant of 1/t at the points w *)
Lemma hermite (w : seq F) : all (fun t => 0 < t) w ->
  exists2 p : {poly F}, (size p <= (size w).*2)%N & forall t, t * p.[t] = 1 - \prod_(u <- w) (1 - t / u) ^+ 2.
Proof.
elim: w => [|u w IH] /=; first by move=> _; exists 0; rewrite ?size_poly0 // => t; rewrite big_nil horner0 mulr0 subrr.
move=> /andP[u0 /IH[p sp hp]]; have un := lt0r_neq0 u0.
exists ((2%:R / u)%:P - (u ^- 2)%:P * 'X + (1 - (u^-1)%:P * 'X) ^+ 2 * p) => [|t]; last first.
  rewrite big_cons; have -> : \prod_(j <- w) (1 - t / j) ^+ 2 = 1 - t * p.[t] by rewrite hp; ring.
  rewrite !(hornerD, hornerN, hornerM, hornerC, hornerX, expr2); move: p.[t] => c; by field.
have s1 (a b : F) : (size (a%:P - b%:P * 'X)%R <= 2)%N.
  apply: (leq_trans (size_add _ _)); rewrite size_opp geq_max; apply/andP; split.
    by rewrite (leq_trans (size_polyC_leq1 _)).
  apply: (leq_trans (size_mul_leq _ _)); rewrite size_polyX; have := size_polyC_leq1 b; move: (size _) => k; lia.
apply: (leq_trans (size_add _ _)); rewrite geq_max; apply/andP; split; first by apply: (leq_trans (s1 _ _)).
apply: (leq_trans (size_mul_leq _ _)); have := s1 1 u^-1; rewrite -polyC1.
set q := _ - _ => hq; have hq2 : (size (q ^+ 2) <= 3)%N.
  by rewrite expr2; apply: (leq_trans (size_mul_leq _ _)); move: (size q) hq => k; lia.
move: (size (q ^+ 2)) (size p) hq2 sp => k1 k2; lia.
Qed.

Lemma hermite_le (w : seq F) (p : {poly F}) t : 0 < t -> (forall t, t * p.[t] = 1 - \prod_(u <- w) (1 - t / u) ^+ 2) ->
  p.[t] <= t^-1 /\ (t \in w -> p.[t] = t^-1).
Proof.
move=> t0 hp; have tn := lt0r_neq0 t0; have E : p.[t] = t^-1 * (1 - \prod_(u <- w) (1 - t / u) ^+ 2) by rewrite -hp mulKf.
split=> [|tw].
  rewrite E -[X in _ <= X]mulr1 ler_pmul2l ?invr_gt0 // ler_subl_addr ler_addl.
  by apply: prodr_ge0 => u _; exact: sqr_ge0.
by rewrite E (big_rem t) //= divff // subrr expr0n mul0r subr0 mulr1.
Qed.

Lemma posdef_range : posdef A -> range_in A (fun t => 0 < t).
Proof.
move=> h y hy; apply: h; apply/eqP => y0; move: hy; rewrite y0 /qform mulmx0 mxE => /eqP.
by rewrite eq_sym oner_eq0.
Qed.

Lemma posdef_inv : posdef A -> A \in unitmx /\ is_mxfun (fun t => t^-1) A (invmx A).
Proof.
move=> h; have [V [l [o e]]] := spectral sA; have o' := mulmx1C o.
have lp0 j : 0 < l 0 j := col_range j o e (posdef_range h).
set B := V *m diag_mx (\row_j (l 0 j)^-1) *m V^T.
have AB : A *m B = 1%:M.
  rewrite /B !mulmxA e -(mulmxA V) mulmx_diag -[RHS]o'; congr (_ *m _).
  rewrite -[RHS]mulmx1; congr (_ *m _).
  by apply/matrixP => i j; rewrite !mxE divff // gt_eqF.
have uA := (mulmx1_unit AB).1; split=> //; exists V, l; split=> //.
by rewrite -[LHS]mulmx1 -AB mulKmx.
Qed.

(* the quadrature never exceeds x^T A^-1 x, and is positive *)
Theorem C92_inverse_lower M0 M x : built M0 -> after_calls M0 M -> unstale M0 M -> size x = n -> vec n x != 0 ->
  applies_on (fun t => 0 < t) (mf_fun M0) (fun t => t^-1) -> stop_at A (q0 x) tol (mf_deg M0) (mf_deg M0) -> posdef A ->
  exists z, (mf_quad M [:: x]).1 = Ret [:: Fin z] /\ 0 < z <= qform (invmx A) (vec n x).
Proof.
move=> H C U sx v0 hg hs pA; have hD := posdef_range pA.
have [w [y [E sw aw y1 hq]]] := quad_core H C U sx v0 hs hD hg.
have [p sp hp] := hermite aw; rewrite sw in sp.
have [uA hB] := posdef_inv pA.
have [z [E1 [z1 z2]]] := C91_minorant H C U sx v0 hs hD hg hB sp (fun t t0 => (hermite_le t0 hp).1).
exists z; split=> //; move: E; rewrite E1 => -[Ezz].
have wp (j : 'I_(mf_deg M0)) : 0 < w`_j by apply: (allP aw); rewrite mem_nth // sw.
apply/andP; split.
  rewrite Ezz mulr_gt0 //; last by rewrite exprn_gt0 // lt_def vnorm_eq0 v0 vnorm_ge0.
  have : \sum_(j < mf_deg M0) y`_j ^+ 2 != 0 by rewrite y1 oner_eq0.
  rewrite lt_def sumr_ge0 ?andbT => [|j _]; last by rewrite mulr_ge0 ?sqr_ge0 // invr_ge0 ltW.
  apply: contraNneq => /eqP; rewrite psumr_eq0 => [/allP h0|j _]; last by rewrite mulr_ge0 ?sqr_ge0 // invr_ge0 ltW.
  apply/eqP; apply: big1 => j _; have := h0 j; rewrite mem_index_enum => /(_ isT).
  by rewrite mulf_eq0 invr_eq0 (gt_eqF (wp j)) orbF => /eqP.
apply: le_trans z2; rewrite Ezz -hq // ler_wpmul2r ?sqr_ge0 // ler_sum // => j _.
have wj : w`_j \in w by rewrite mem_nth // sw.
by rewrite (hermite_le (wp j) hp).2.
Qed.

(* more Lanczos steps only bring it closer *)
Theorem C92_inverse_monotone M1 M1' M2 M2' x : built M1 -> after_calls M1 M1' -> unstale M1 M1' ->
  built M2 -> after_calls M2 M2' -> unstale M2 M2' -> size x = n -> vec n x != 0 ->
  applies_on (fun t => 0 < t) (mf_fun M1) (fun t => t^-1) -> applies_on (fun t => 0 < t) (mf_fun M2) (fun t => t^-1) ->
  (mf_deg M1 <= mf_deg M2)%N -> stop_at A (q0 x) tol (mf_deg M2) (mf_deg M2) -> posdef A ->
  exists z1 z2, (mf_quad M1' [:: x]).1 = Ret [:: Fin z1] /\ (mf_quad M2' [:: x]).1 = Ret [:: Fin z2] /\ z1 <= z2.
Proof.
move=> H1 C1 U1 H2 C2 U2 sx v0 hg1 hg2 dd hs pA; have hD := posdef_range pA.
have hs1 : stop_at A (q0 x) tol (mf_deg M1) (mf_deg M1).
  have [W1 _ _] := built_ok eps0 n0 H1; have /andP[d1 _] := wf_deg W1.
  by case: hs => _ h _; split; [rewrite d1 leqnn|move=> i /andP[i0 i1]; apply: h; rewrite i0 (leq_trans i1 dd)|left].
have [w [y [E sw aw y1 hq]]] := quad_core H1 C1 U1 sx v0 hs1 hD hg1.
have [p sp hp] := hermite aw; rewrite sw in sp.
have [uA hB] := posdef_inv pA.
have sp2 : (size p <= (mf_deg M2).*2)%N by rewrite (leq_trans sp) // leq_double.
have [z [E1 [z1 z2]]] := C91_minorant H2 C2 U2 sx v0 hs hD hg2 hB sp2 (fun t t0 => (hermite_le t0 hp).1).
eexists; exists z; split; first exact: E; split=> //; apply: le_trans z1; rewrite -hq // ler_wpmul2r ?sqr_ge0 //.
rewrite ler_sum // => j _; have wj : w`_j \in w by rewrite mem_nth // sw.
by rewrite (hermite_le (allP aw _ wj) hp).2.
Qed.

Lemma galerkin k (Q : 'M[F]_(n, k)) (T : 'M[F]_k) (s1 s2 e : 'cV[F]_k) c (v : 'cV[F]_n) : posdef A -> A \in unitmx ->
  Q^T *m Q = 1%:M -> Q^T *m A *m Q = T -> c *: (Q *m e) = v -> T *m s1 = e ->
  qform A (c *: (Q *m s1) - invmx A *m v) <= qform A (c *: (Q *m s2) - invmx A *m v).
Proof.
move=> pA uA qq qa ev es; pose y : 'cV[F]_n := c *: (Q *m s1); pose r : 'cV[F]_n := y - invmx A *m v; rewrite -/y -/r; pose d := Q *m (c *: (s2 - s1)).
have -> : c *: (Q *m s2) - invmx A *m v = d + r.
  by rewrite /d /r /y -scalemxAr mulmxBr scalerBr addrA subrK.
have Ar : Q^T *m (A *m r) = 0.
  rewrite /r /y [A *m _]mulmxBr mulKVmx // [LHS]mulmxBr -ev -!scalemxAr !mulmxA qa qq mul1mx es; exact: subrr.
clearbody r; have dr : d^T *m (A *m r) = 0 by rewrite /d trmx_mul -mulmxA Ar mulmx0.
clearbody d; have rd : r^T *m A *m d = 0 by apply: trmx_inj; rewrite trmx_mul trmx_mul sA trmxK trmx0 dr.
rewrite /qform [(d + r)^T]linearD /= mulmxDl mulmxDr !mulmxDl rd -(mulmxA d^T A r) dr addr0 add0r [X in _ <= X]mxE ler_addr.
have [->|dn] := eqVneq d 0; first by rewrite mulmx0 mxE.
by exact: ltW (pA _ dn).
Qed.

(* A @ y = x solved through fun="inv": no p(A) x with deg p < deg is closer to A^-1 x in the
   norm sqrt(z^T A z) *)
Theorem C92_solve_best M0 M x : built M0 -> after_calls M0 M -> size x = n -> vec n x != 0 ->
  applies_on (fun t => 0 < t) (mf_fun M0) (fun t => t^-1) -> stop_at A (q0 x) tol (mf_deg M0) (mf_deg M0) -> posdef A ->
  exists y : 'cV[F]_n, (mf_matvec M x).1 = Ret [seq Fin (y i 0) | i <- enum 'I_n] /\
    forall p : {poly F}, (size p <= mf_deg M0)%N ->
      qform A (y - invmx A *m vec n x) <= qform A (polymx p A *m vec n x - invmx A *m vec n x).
Proof.
move=> H C sx v0 hg hs pA; have hD := posdef_range pA; have [W L S] := calls_ok eps0 n0 H C.
case: S => -[e1 e2] e3 _ _ _; rewrite -e3 in hs; rewrite -e2 in hg.
have [w [Y [[_ eig] E]]] := matvec_run lapack eps0 n0 sA dA W L sx hs.
have /andP[d0 _] := wf_deg W; set M' := mf_after A (zero_Q M) x (mf_deg M) in eig E.
have eig' : is_eigh (mfT M') w Y := eig.
have ub := stop_ub n0 hs; have QQ := @QTQ F n A (q0 x) sA (start_unit v0) _ ub.
have TT := @QTAQ F n A (q0 x) sA (start_unit v0) _ ub.
have W0 := zero_wf W.
have ET : mfT M' = jacobi (mf_deg M) (la A (q0 x)) (lb A (q0 x)).
  by apply: jacobi_ext => i hi; [exact: (after_al W0 hs hi)|apply: (after_be W0 hs); case/andP: hi => _ /ltnW].
have eT := eig'; rewrite ET -TT in eT; have [sw _ _ _ _] := eT.
have hw := ritz_range QQ eT hD.
have [p' hp'] := interpolate (fun t => t^-1) w.
have hf : fvals (mf_fun M w) = [seq Fin p'.[t] | t <- w].
  by rewrite hg //; apply/eq_in_map => t tw; rewrite hp'.
rewrite E (@matvec_value_on M M' x w Y p' (Ordinal d0) erefl erefl eig' hf) /cseq -map_comp.
eexists; split; first by [].
move=> p sp; rewrite -e3 in sp.
set v := vec n x; set c := vnorm v; set i0 := Ordinal d0.
have R q h := @run_fun F eps eps0 n n0 A (zero_Q M) x (mf_deg M) W0 hs q i0 erefl (or_introl (conj erefl h)).
have aQ : qmat n (mf_deg M) (mf_Q M') = Qm A (q0 x) (mf_deg M).
  have := after_Q (M := zero_Q M) hs; have -> : emb F (mf_deg (zero_Q M)) (mf_deg M) = 1%:M by apply/matrixP => i j; rewrite !mxE val_eqE.
  by rewrite mulmx1.
have R1 := R 1 _; rewrite -(expr0 'X) !polymxXn /= !mul1mx in R1.
rewrite -(R p sp); have [_ _ _ oY eY] := eig'; set Y1 := rows_mx _ _ Y in oY eY.
apply: (@galerkin _ _ (mfT M') _ _ (delta_mx i0 0) c v pA (posdef_inv pA).1).
- by rewrite aQ.
- by rewrite aQ TT -ET.
- by apply: R1; rewrite size_poly1.
rewrite (polymx_eig p' oY eY) !mulmxA eY -(mulmxA Y1) mulmx_diag.
have -> : diag_mx (\row_j ((\row_j0 w`_j0) 0 j * (\row_j0 p'.[(\row_j1 w`_j1) 0 j0]) 0 j)) = 1%:M :> 'M[F]_(mf_deg M).
  apply/matrixP => i j; rewrite !mxE; have wi : w`_i \in w by rewrite mem_nth // sw.
  by rewrite hp' // mulfV // (gt_eqF (allP hw _ wi)).
by rewrite mulmx1 (mulmx1C oY) mul1mx.
Qed.
End A.
End P.

(* ---- examples -------------------------------------------------------------------------- *)
Section Ex.
Variable F : rcfType.
Variables (eps : F) (fexp flog : F -> F) (feps : F).
Hypothesis eps0 : 0 <= eps.
Notation lv := (@ref_vals F).
Notation lp := (@ref_pairs F).
Notation ini n f := (mf_init fexp flog feps (sq_array n) f (no_kw F)).
Notation quad A := (mf_quad eps lv lp A KDense F64).
Notation matvec A := (mf_matvec eps lv lp A KDense F64).
Notation P := (P3 (2%:R : F)).
Notation D := [pred t : F | 1 / 2%:R <= t <= 7%:R / 2%:R].

Lemma P_form (y : 'cV[F]_3) : qform P y = 2%:R * dt y y + 2%:R * (y 0 0 * y 1 0 + y 1 0 * y (inord 2) 0).
Proof.
rewrite /qform -mulmxA -/(dt y (P *m y)) !dt3 !mxE !sum3 !mxE /= !inordK //=; ring.
Qed.

Lemma P_range : range_in P D.
Proof.
move=> y; rewrite /qform mulmx1 -/(dt y y) => y1 /=; rewrite -/(qform P y) P_form y1.
move: y1; rewrite dt3; move: (y 0 0) (y 1 0) (y (inord 2) 0) => a b c h.
have s2 (s : F) : s ^+ 2 = 1 -> 0 <= 3%:R / 2%:R * (a * a + b * b + c * c) + s * (2%:R * (a * b + b * c)).
  move=> hs; have -> : 3%:R / 2%:R * (a * a + b * b + c * c) + s * (2%:R * (a * b + b * c)) =
     3%:R / 2%:R * (a + s * (2%:R / 3%:R * b)) ^+ 2 + 3%:R / 2%:R * (c + s * (2%:R / 3%:R * b)) ^+ 2 + 1 / 6%:R * b ^+ 2
     + 4%:R / 3%:R * b ^+ 2 * (1 - s ^+ 2) by field.
  rewrite hs subrr mulr0 addr0; apply: addr_ge0; [apply: addr_ge0|]; rewrite mulr_ge0 ?sqr_ge0 ?divr_ge0 ?ler0n ?ler01 //.
have h1 := s2 1 (expr1n _ _); have h2 : 0 <= _ := s2 (-1) _; rewrite h in h1 h2.
have {}h2 := h2 (etrans (sqrrN _) (expr1n _ _)).
apply/andP; split.
  rewrite -subr_ge0; apply: (le_trans h1); rewrite le_eqVlt; apply/orP; left; apply/eqP; by field.
rewrite -subr_ge0; apply: (le_trans h2); rewrite le_eqVlt; apply/orP; left; apply/eqP; by field.
Qed.

Lemma P_posdef : posdef P.
Proof.
move=> y y0; pose c := (vnorm y)^-1.
have vy : 0 < vnorm y by rewrite lt_def vnorm_eq0 y0 vnorm_ge0.
have h1 : qform 1%:M (c *: y) = 1.
  rewrite /qform mulmx1 -/(dt _ _) -vnorm_sq vnormZ ger0_norm ?invr_ge0 ?vnorm_ge0 // mulVf ?expr1n //.
  by rewrite gt_eqF.
have := P_range h1 => /andP[h _].
have E : qform P (c *: y) = c ^+ 2 * qform P y.
  have sc i : (c *: y) i 0 = c * y i 0 by rewrite mxE.
  by rewrite !P_form !dt3 !sc; ring.
rewrite E in h; have c2 : 0 < c ^+ 2 by rewrite exprn_gt0 // invr_gt0.
by rewrite -(pmulr_rgt0 _ c2); apply: lt_le_trans h; rewrite divr_gt0 ?ltr01 ?ltr0n.
Qed.

Lemma v3 : vec 3 (e3 F 0) != 0.
Proof. by rewrite vec3 //; apply/eqP => /matrixP/(_ 0 0); rewrite !mxE /= => /eqP; rewrite oner_eq0. Qed.

(* f(t) = t + |t - 2| / 10 on a 3 x 3 matrix with spectrum in [1/2, 7/2], deg = 2: within
   3/10 of the exact values, quad at least x^T A x *)
Example C91_ex : let g (t : F) := t + `|t - 2%:R| / 10%:R in
  exists M0 B z (y : 'cV[F]_3), [/\ ini 3 (fcall (fun t => Fin (g t))) 2 3 F64 = Ok M0 /\ mf_deg M0 = 2%N, is_mxfun g P B,
    (quad P M0 [:: e3 F 0]).1 = Ret [:: Fin z] /\ (matvec P M0 (e3 F 0)).1 = Ret [seq Fin (y i 0) | i <- enum 'I_3],
    2%:R <= z /\ `|z - qform B (E3 F 0)| <= 3%:R / 10%:R & vnorm (y - B *m E3 F 0 : 'cV[F]_3) <= 3%:R / 10%:R].
Proof.
move=> g; have [M0 [E0 H hf d0 _]] := @ex_built F eps fexp flog feps eps0 3 (fun t => Fin (g t)) 2 3 isT.
have {}d0 : mf_deg M0 = 2%N by rewrite d0.
have C0 : after_calls eps lv lp P KDense F64 M0 M0 by exists [::].
have hs : stop_at P ((vnorm (vec 3 (e3 F 0)))^-1 *: vec 3 (e3 F 0)) (Num.sqrt 3%:R * (1 / 10%:R ^+ 8)) (mf_deg M0) (mf_deg M0).
  by rewrite d0; apply: P3_stop; [left|].
have [B hB] := mxfun_exists (P3_sym 2%:R) g.
have hg : applies_on D (mf_fun M0) g by move=> xs _; exact: hf.
have sp : (size ('X : {poly F}) <= mf_deg M0)%N by rewrite size_polyX d0.
have sp2 : (size ('X : {poly F}) <= (mf_deg M0).*2)%N by rewrite size_polyX d0.
have h0 (t : F) : 'X.[t] <= g t by rewrite hornerX ler_addl divr_ge0 ?ler0n.
have he (t : F) : D t -> `|g t - 'X.[t]| <= 3%:R / 20%:R.
  move=> /andP[t1 t2]; rewrite hornerX /g addrAC subrr add0r normrM normr_id [`|10%:R^-1|]ger0_norm ?invr_ge0 ?ler0n //.
  have -> : 3%:R / 20%:R = 3%:R / 2%:R / 10%:R :> F by field.
  rewrite ler_wpmul2r ?invr_ge0 ?ler0n // ler_norml; apply/andP; split.
    by rewrite -subr_ge0; move: t1; rewrite -subr_ge0; have -> : t - 2%:R - - (3%:R / 2%:R) = t - 1 / 2%:R by field.
  by rewrite ler_subl_addr; have -> : 3%:R / 2%:R + 2%:R = 7%:R / 2%:R :> F by field.
have N1 : vnorm (E3 F 0) = 1 by rewrite vnormE E3dt // sqrtr1.
have [z [Ez hz]] := C91_quad_error eps0 (@ref_ok F) (isT : (0 < 3)%N) (P3_sym 2%:R) H C0 (or_introl erefl) (erefl : size (e3 F 0) = 3%N) v3 hs P_range hg hB sp2 he.
have [z' [Ez' [hz' _]]] := C91_minorant eps0 (@ref_ok F) (isT : (0 < 3)%N) (P3_sym 2%:R) H C0 (or_introl erefl) (erefl : size (e3 F 0) = 3%N) v3 hs P_range hg hB sp2 (fun t _ => h0 t).
have [y [Ey hy]] := C91_matvec_error eps0 (@ref_ok F) (isT : (0 < 3)%N) (P3_sym 2%:R) H C0 (erefl : size (e3 F 0) = 3%N) v3 hs P_range hg hB sp he.
move: Ez'; rewrite Ez => -[ez]; rewrite -{}ez in hz'; rewrite vec3 // N1 ?expr1n ?mulr1 in hz hz' hy.
have e6 : 2%:R * (3%:R / 20%:R) = 3%:R / 10%:R :> F by field.
rewrite e6 in hz hy; exists M0, B, z, y; split=> //; split=> //.
apply: le_trans hz'; rewrite -['X]expr1 polymxXn /= mulmx1 P_form E3dt // !mxE /= !inordK //=.
by rewrite mulr0 mul0r addr0 mulr0 addr0 mulr1.
Qed.

(* fun = "inv", deg = 2 and deg = 3, orth = 3: the true value is 3/4 *)
Example C92_ex : exists M1 M2 z1 z2, [/\ ini 3 (MStr "inv") 2 3 F64 = Ok M1 /\ mf_deg M1 = 2%N,
  ini 3 (MStr "inv") 3 3 F64 = Ok M2 /\ mf_deg M2 = 3%N,
  (quad P M1 [:: e3 F 0]).1 = Ret [:: Fin z1] /\ (quad P M2 [:: e3 F 0]).1 = Ret [:: Fin z2],
  qform (invmx P) (E3 F 0) = 3%:R / 4%:R & 0 < z1 <= z2 /\ z2 <= 3%:R / 4%:R].
Proof.
have bld (deg : int) : (2 <= deg <= 3)%R -> exists M0, [/\ ini 3 (MStr "inv") deg 3 F64 = Ok M0,
    built fexp flog feps 3 KDense M0 & mf_deg M0 = `|deg|%N].
  move=> /andP[g1 g2]; have [_ h] := C62_accepts_iff fexp flog feps (sq_array 3) (MStr "inv") (no_kw F) deg 3 F64.
  have sq : square_shape (sq_array 3) 3 by exists [::].
  have [|M0 E] := h.
    by split=> //; [left|exists 3%N; split=> //=; right; right; right; right; left].
  exists M0; have [[_ dd] _ _ _ _] := C62_fields sq E; split=> //; last by lia.
  by exists (sq_array 3), (MStr "inv"), (no_kw F), deg, 3, F64; split=> //; right.
have [M1 [E1 H1 d1]] := bld 2 isT; have [M2 [E2 H2 d2]] := bld 3 isT.
have hs k : (0 < k <= 3)%N -> stop_at P ((vnorm (vec 3 (e3 F 0)))^-1 *: vec 3 (e3 F 0)) (Num.sqrt 3%:R * (1 / 10%:R ^+ 8)) k k.
  by move=> hk; apply: P3_stop; [left|].
have C1 : after_calls eps lv lp P KDense F64 M1 M1 by exists [::].
have C2 : after_calls eps lv lp P KDense F64 M2 M2 by exists [::].
have s1 := hs _ (isT : (0 < `|2| <= 3)%N); rewrite -d1 in s1; have s2 := hs _ (isT : (0 < `|3| <= 3)%N); rewrite -d2 in s2.
have a1 := C92_builtin E1; have a2 := C92_builtin E2.
have [z1 [q1 /andP[p1 _]]] := C92_inverse_lower eps0 (@ref_ok F) (isT : (0 < 3)%N) (P3_sym 2%:R) H1 C1 (or_introl erefl) (erefl : size (e3 F 0) = 3%N) v3 a1 s1 P_posdef.
have [z2 [q2 /andP[p2 u2]]] := C92_inverse_lower eps0 (@ref_ok F) (isT : (0 < 3)%N) (P3_sym 2%:R) H2 C2 (or_introl erefl) (erefl : size (e3 F 0) = 3%N) v3 a2 s2 P_posdef.
have dd : (mf_deg M1 <= mf_deg M2)%N by rewrite d1 d2.
have [t1 [t2 [r1 [r2 le12]]]] := C92_inverse_monotone eps0 (@ref_ok F) (isT : (0 < 3)%N) (P3_sym 2%:R) H1 C1 (or_introl erefl) H2 C2 (or_introl erefl)
   (erefl : size (e3 F 0) = 3%N) v3 a1 a2 dd s2 P_posdef.
move: r1 r2; rewrite q1 q2 => -[e1] -[e2]; rewrite -e1 -e2 in le12.
have Q : qform (invmx P) (E3 F 0) = 3%:R / 4%:R.
  have uP := (posdef_inv (P3_sym 2%:R) P_posdef).1.
  have <- : P *m (3%:R / 4%:R *: E3 F 0 - 1 / 2%:R *: E3 F 1 + 1 / 4%:R *: E3 F 2) = E3 F 0.
    by apply: colP3; rewrite !mxE !sum3 !mxE /= !inordK //=; by field.
  rewrite /qform; set u := _ + _; have -> : (P *m u)^T *m invmx P *m (P *m u) = u^T *m (P *m u).
    by rewrite -mulmxA mulKmx // trmx_mul P3_sym mulmxA.
  rewrite -/(dt _ _) dt3 !mxE !sum3 !mxE /= !inordK //=; by field.
rewrite vec3 // Q in u2.
by exists M1, M2, z1, z2; split=> //; split=> //; rewrite p1.
Qed.

(* ... and the solve: deg = 2 gives the best combination of x and A x *)
Example C92_solve_ex : exists M0 (y : 'cV[F]_3), [/\ ini 3 (MStr "inv") 2 3 F64 = Ok M0,
  (matvec P M0 (e3 F 0)).1 = Ret [seq Fin (y i 0) | i <- enum 'I_3] &
  forall a b : F, qform P (y - invmx P *m E3 F 0) <= qform P ((a *: E3 F 0 + b *: (P *m E3 F 0)) - invmx P *m E3 F 0 : 'cV[F]_3)].
Proof.
have [M1 [M2 [z1 [z2 [[E1 d1] _ _ _ _]]]]] := C92_ex.
have H1 : built fexp flog feps 3 KDense M1.
  by exists (sq_array 3), (MStr "inv"), (no_kw F), 2, 3, F64; split=> //; [exists [::]|right].
have C1 : after_calls eps lv lp P KDense F64 M1 M1 by exists [::].
have hs : stop_at P ((vnorm (vec 3 (e3 F 0)))^-1 *: vec 3 (e3 F 0)) (Num.sqrt 3%:R * (1 / 10%:R ^+ 8)) (mf_deg M1) (mf_deg M1).
  by rewrite d1; apply: P3_stop; [left|].
have [y [Ey hy]] := C92_solve_best eps0 (@ref_ok F) (isT : (0 < 3)%N) (P3_sym 2%:R) H1 C1 (erefl : size (e3 F 0) = 3%N) v3 (C92_builtin E1) hs P_posdef.
exists M1, y; split=> // a b; pose p : {poly F} := \poly_(i < 2) [:: a; b]`_i.
have sz : (size p <= 2)%N by exact: size_poly.
have := hy p; rewrite vec3 // d1 => /(_ sz); have -> // : polymx p P *m E3 F 0 = a *: E3 F 0 + b *: (P *m E3 F 0).
have -> : polymx p P = \sum_(i < 2) p`_i *: mxpow P i.
  rewrite /polymx (big_ord_widen 2 (fun i => p`_i *: mxpow P i) sz) big_mkcond; apply: eq_bigr => i _.
  by case: ltnP => // h; rewrite nth_default // scale0r.
by rewrite big_ord_recl big_ord1 /= !coef_poly /= mulmx1 mulmxDl -!scalemxAl mul1mx.
Qed.
End Ex.

Print Assumptions C91_minorant.
Print Assumptions C91_quad_error.
Print Assumptions C91_matvec_error.
Print Assumptions C92_builtin.
Print Assumptions C92_inverse_lower.
Print Assumptions C92_inverse_monotone.
Print Assumptions C92_solve_best.
