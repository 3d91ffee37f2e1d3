(* One call of the Lanczos kernel by a MatrixFunction, and what its tridiagonal
   matrix says about f(A). *)
From Coq Require Import String.
From mathcomp Require Import all_ssreflect all_algebra zify ring.
From Verif Require Import Base ModelXtrace LemXtrace ModelLanczos LemLanczos SpecLanczos LemLanczos2 LemLanczos3 LemLanczos4
  ModelTqli ModelQuadrature ModelSpecial ModelOperators SpecTridiag SpecQuad SpecOperators LemSpectral LemQuad PropQuad.
Set Implicit Arguments.
Unset Strict Implicit.
Unset Printing Implicit Defensive.
Import Order.TTheory GRing.Theory Num.Theory.
Local Open Scope string_scope.
Local Open Scope ring_scope.

Section L.
Variable F : rcfType.

(* ---- interpolation ---------------------------------------------------------------- *)
Lemma interpolate (g : F -> F) (s : seq F) : exists p : {poly F}, forall x, x \in s -> p.[x] = g x.
Proof.
elim: s => [|y s [p hp]]; first by exists 0.
case: (boolP (y \in s)) => ys.
  by exists p => x; rewrite in_cons => /orP[/eqP->|]; apply: hp.
pose q := \prod_(z <- s) ('X - z%:P); have qy : q.[y] != 0.
  by rewrite -[_ == 0]/(root q y) root_prod_XsubC.
exists (p + ((g y - p.[y]) / q.[y])%:P * q) => x; rewrite in_cons hornerD hornerM hornerC => /orP[/eqP->|hx].
  by rewrite mulfVK // addrC subrK.
have -> : q.[x] = 0 by apply/eqP; rewrite -[_ == 0]/(root q x) root_prod_XsubC.
by rewrite mulr0 addr0 hp.
Qed.

Lemma mxfun_poly n (A B U : 'M[F]_n) (l : 'rV[F]_n) (g : F -> F) (p : {poly F}) :
  U^T *m U = 1%:M -> A *m U = U *m diag_mx l -> B = U *m diag_mx (\row_j g (l 0 j)) *m U^T ->
  (forall j, p.[l 0 j] = g (l 0 j)) -> polymx p A = B.
Proof.
move=> h1 h2 -> hp; rewrite (polymx_eig p h1 h2); congr (_ *m diag_mx _ *m _).
by apply/rowP => j; rewrite !mxE hp.
Qed.

Lemma qformZ n (B : 'M[F]_n) (c : F) (y : 'cV[F]_n) : qform B (c *: y) = c ^+ 2 * qform B y.
Proof.
rewrite /qform; have -> : (c *: y)^T = c *: y^T by apply/matrixP => i j; rewrite !mxE.
by rewrite -!scalemxAl -scalemxAr scalerA mxE -expr2.
Qed.

(* ---- overload resolution ----------------------------------------------------------- *)
Lemma mf_resolve_ok k dA d : d <> OtherDtype ->
  exists bd, [/\ mf_resolve k dA d = Some bd, b_out bd & forall mv : bool,
    (mv \/ forall e, k <> KObject e) -> (if (b_ov bd).2 is WObject then ~~ mv else false) = false].
Proof.
case: d => // _; case: k => [||e].
all: try (case: dA; eexists; split=> // mv; by case=> [->|h]).
all: case: dA; eexists; split=> // mv; by case=> [->|h] //; case: (h e).
Qed.

Section A.
Variable eps : F.
Hypothesis eps0 : 0 <= eps.
Variable n : nat.
Hypothesis n0 : (0 < n)%N.
Variable A : 'M[F]_n.
Hypothesis sA : A^T = A.
Variables (kd : okind) (dA : dty).
Implicit Types (M : mfobj F) (x : seq F).
Local Notation tol := (Num.sqrt n%:R * mf_rtol F).
Local Notation q0 x := (start (cvec n x)).

Record mf_wf M : Prop := MfWf {
  wf_n : mf_n M = n; wf_deg : (0 < mf_deg M <= n)%N; wf_orth : 0 <= mf_orth M <= (mf_deg M)%:Z;
  wf_al : size (mf_alpha M) = (mf_deg M).+1; wf_be : size (mf_beta M) = (mf_deg M).+1;
  wf_ns : size (mf_nodes M) = mf_deg M; wf_ws : size (mf_weights M) = mf_deg M;
  wf_Q : size (mf_Q M) = (n * mf_deg M)%N }.

(* the kernel can be called and its output reaches the object *)
Definition mf_live M : Prop := mf_dt M <> OtherDtype /\ (mf_mv M \/ forall e, kd <> KObject e).

(* stale Lanczos vectors do not matter: at most two are looked at, or all are zero *)
Definition mf_clean M : Prop := mf_orth M <= 2 \/ forall y, y \in mf_Q M -> y = 0.

Lemma tol_gt0 : 0 < tol.
Proof. by rewrite mulr_gt0 ?sqrtr_gt0 ?ltr0n // divr_gt0 ?ltr01 // exprn_gt0 ?ltr0n. Qed.

Lemma tri0 j : tri A 0 j = (0, 0, 0).
Proof.
elim: j => [//|j IH] /=; rewrite IH /tri_resid mulmx0 scaler0 subr0 scaler0 subr0 scaler0 vnormE dt0r sqrtr0 //.
Qed.

Lemma start0 : start (0 : 'cV[F]_n) = 0. Proof. by rewrite /start scaler0. Qed.

Lemma stop_ub v deg s : stop_at A (start v) tol deg s -> unbroken A (start v) s.
Proof. exact: unbroken_tol tol_gt0. Qed.

Lemma idle_lr v deg s j i : stop_at A (start v) tol deg s -> (j < s)%N -> (i <= j)%N -> dt (lr A (start v) j) (lq A (start v) i) = 0.
Proof.
move=> hs js ij; have [->|v0] := eqVneq v 0; first by rewrite start0 /lr tri0 /tri_resid mulmx0 scaler0 subr0 scaler0 subr0 dt0l.
by apply: (@lr_ortho F n A _ sA (start_unit v0) s) => //; apply: stop_ub hs.
Qed.

Definition mf_after M x s : mfobj F :=
  let st := kfinal A (cvec n x) s (mf_deg M) (mf_alpha M) (mf_beta M) (mf_Q M) in
  MF (mf_n M) (mf_fun M) (mf_deg M) (mf_orth M) (mf_dt M) (mf_mv M) (k_alpha st) (k_beta st) (mf_nodes M) (mf_weights M) (k_V st).

Lemma mf_lanczos_run M x s : mf_wf M -> mf_live M -> mf_clean M -> size x = n ->
  stop_at A (q0 x) tol (mf_deg M) s -> mf_lanczos eps A kd dA M x = Ret (mf_after M x s).
Proof.
move=> W [hd hm] hc sx hs; have [bd [e1 e2 e3]] := mf_resolve_ok kd dA hd.
rewrite /mf_lanczos e1 (e3 _ hm); have /andP[d0 dn] := wf_deg W.
rewrite (@kernel_final F n A eps (mf_rtol F) (mf_deg M) (mf_orth M) (mf_deg M) x _ _ _ s) ?e2 //.
- by lia.
- by split; rewrite ?(wf_Q W) ?(wf_al W) ?(wf_be W).
right; split=> //; first by move=> j i; apply: idle_lr hs.
case: hc => [|hc]; [by left|right=> c _; right].
apply/colP => i; rewrite !mxE; have [hi|hi] := ltnP (c * n + i) (size (mf_Q M)); last by rewrite nth_default.
by apply: hc; rewrite mem_nth.
Qed.

Lemma after_wf M x s : mf_wf M -> mf_wf (mf_after M x s).
Proof.
by case=> *; split=> //=; rewrite ?size_mkseq // size_flatV mulnC.
Qed.

Lemma zero_wf M : mf_wf M -> mf_wf (zero_Q M).
Proof. by case=> *; split=> //=; rewrite size_nseq. Qed.

Lemma zero_clean M : mf_clean (zero_Q M).
Proof. by right=> y /=; rewrite mem_nseq => /andP[_ /eqP]. Qed.

(* ---- the tridiagonal matrix of the object ------------------------------------------- *)
Definition mfT M : 'M[F]_(mf_deg M) := jacobi (mf_deg M) (nth 0 (mf_alpha M)) (nth 0 (mf_beta M)).

Definition qmat k (Q : seq F) : 'M[F]_(n, k) := \matrix_(i, j) Q`_(j * n + i).

(* the run was not cut short, or ended in an invariant subspace *)
Definition complete x (deg s : nat) : Prop := s = deg \/ lb A (q0 x) s = 0.

Section Run.
Variables (M : mfobj F) (x : seq F) (s : nat).
Hypothesis W : mf_wf M.
Hypothesis hs : stop_at A (q0 x) tol (mf_deg M) s.
Local Notation d := (mf_deg M).
Local Notation M' := (mf_after M x s).
Local Notation v := (cvec n x).

Lemma s_gt0 : (0 < s <= d)%N. Proof. by case: hs. Qed.

Lemma after_al i : (i < s)%N -> (mf_alpha M')`_i = la A (q0 x) i.
Proof. by move=> h; have /andP[_ sd] := s_gt0; rewrite /= nth_mkseq ?h // (wf_al W) ltnS (leq_trans (ltnW h)). Qed.
Lemma after_be i : (i <= s)%N -> (mf_beta M')`_i = lb A (q0 x) i.
Proof. by move=> h; have /andP[_ sd] := s_gt0; rewrite /= nth_mkseq ?h // (wf_be W) ltnS (leq_trans h). Qed.

Lemma after_T00 p (i0 : 'I_d) (j0 : 'I_s) : i0 = 0%N :> nat -> j0 = 0%N :> nat -> complete x d s ->
  polymx p (mfT M') i0 i0 = polymx p (jacobi s (la A (q0 x)) (lb A (q0 x))) j0 j0.
Proof.
move=> h1 h2 hc; have /andP[s0 sd] := s_gt0; apply: poly00_emb => //.
- by move=> i hi; rewrite after_al.
- by move=> i hi; rewrite after_be // ltnW.
by move=> h; rewrite after_be //; case: hc => // e; move: h; rewrite e ltnn.
Qed.

Lemma after_Te0 p (i0 : 'I_d) (j0 : 'I_s) : i0 = 0%N :> nat -> j0 = 0%N :> nat -> complete x d s ->
  polymx p (mfT M') *m (delta_mx i0 0 : 'cV[F]_d) =
  emb F d s *m (polymx p (jacobi s (la A (q0 x)) (lb A (q0 x))) *m (delta_mx j0 0 : 'cV[F]_s)).
Proof.
move=> h1 h2 hc; have /andP[s0 sd] := s_gt0; apply: poly_emb => //.
- by move=> i hi; rewrite after_al.
- by move=> i hi; rewrite after_be // ltnW.
by move=> h; rewrite after_be //; case: hc => // e; move: h; rewrite e ltnn.
Qed.

(* the first s columns of Q are the Lanczos vectors *)
Lemma after_Q : qmat d (mf_Q M') *m emb F d s = Qm A (q0 x) s.
Proof.
have /andP[s0 sd] := s_gt0; apply/matrixP => i j; rewrite !mxE (bigD1 (widen_ord sd j)) //= big1 ?addr0; last first.
  move=> l hl; have h : (l == j :> nat) = false by apply/negbTE; apply: contra hl => h; rewrite -val_eqE.
  by rewrite [emb _ _ _ _ _]mxE h mulr0.
have jd : (j < d)%N by exact: leq_trans sd.
rewrite [emb _ _ _ _ _]mxE eqxx mulr1 [LHS]mxE /=; set V := (fun c : nat => if _ then _ else _).
have := colv_flat V jd; rewrite /colv => /colP/(_ i); rewrite mxE => ->.
by rewrite /V ltn_ord slot_small.
Qed.

Definition small k (p : {poly F}) : Prop := (s = d /\ (size p <= k)%N) \/ lb A (q0 x) s = 0.

Lemma small_complete k p : small k p -> complete x d s.
Proof. by case=> [[? _]|?]; [left|right]. Qed.

Lemma lr_last : lb A (q0 x) s = 0 -> lr A (q0 x) s.-1 = 0.
Proof.
move=> h; have /andP[s0 _] := s_gt0; apply/eqP; rewrite -vnorm_eq0 -lbS prednK // h //.
Qed.

Lemma startK : vnorm v *: q0 x = v.
Proof.
rewrite /start scalerA; have [->|v0] := eqVneq v 0; first by rewrite scaler0.
by rewrite divff ?scale1r // vnorm_eq0.
Qed.

Lemma Qm_e0 (j0 : 'I_s) : j0 = 0%N :> nat -> Qm A (q0 x) s *m (delta_mx j0 0 : 'cV[F]_s) = q0 x.
Proof. by move=> h; rewrite -colE col_Qm h. Qed.

(* Gauss quadrature *)
Lemma run_quad p (i0 : 'I_d) : i0 = 0%N :> nat -> small d.*2 p ->
  polymx p (mfT M') i0 i0 * vnorm v ^+ 2 = qform (polymx p A) v.
Proof.
move=> h1 hp; have /andP[s0 sd] := s_gt0; pose j0 := Ordinal s0.
rewrite (@after_T00 p i0 j0) //; last exact: small_complete hp.
have [v0|v0] := eqVneq v 0; first by rewrite v0 /qform mulmx0 mxE vnormE dt0r sqrtr0 expr0n mulr0.
have ub := stop_ub hs; have AQ := @A_Qm F n A (q0 x) s ub.
have QQ := @QTQ F n A (q0 x) sA (start_unit v0) s ub; have Qr := @QT_lr F n A (q0 x) sA (start_unit v0) s ub s0.
have AQ' j : A *m col j (Qm A (q0 x) s) = Qm A (q0 x) s *m col j (jacobi s (la A (q0 x)) (lb A (q0 x))) + (j.+1 == s)%:R *: lr A (q0 x) s.-1.
  rewrite AQ; case: eqP => [e|_]; last by rewrite !scale0r.
  by rewrite (_ : s.-1 = j) //; lia.
have E : ((q0 x)^T *m polymx p A *m q0 x) 0 0 = polymx p (jacobi s (la A (q0 x)) (lb A (q0 x))) j0 j0.
  rewrite -{1 2}(@Qm_e0 j0) //; case: hp => [[sd' hp]|hl].
    by apply: (krylov_quad sA QQ Qr AQ') => //; rewrite sd'.
  by apply: (inv_quad QQ AQ') => //; exact: lr_last.
by rewrite -E -[in RHS]startK qformZ mulrC.
Qed.

(* Krylov approximation of f(A) x *)
Lemma run_fun p (i0 : 'I_d) : i0 = 0%N :> nat -> small d p ->
  vnorm v *: (qmat d (mf_Q M') *m (polymx p (mfT M') *m (delta_mx i0 0 : 'cV[F]_d))) = polymx p A *m v.
Proof.
move=> h1 hp; have /andP[s0 sd] := s_gt0; pose j0 := Ordinal s0.
rewrite (@after_Te0 p i0 j0) //; last exact: small_complete hp.
rewrite mulmxA after_Q.
have [v0|v0] := eqVneq v 0; first by rewrite v0 mulmx0 vnormE dt0r sqrtr0 scale0r.
have ub := stop_ub hs; have AQ := @A_Qm F n A (q0 x) s ub.
have AQ' j : A *m col j (Qm A (q0 x) s) = Qm A (q0 x) s *m col j (jacobi s (la A (q0 x)) (lb A (q0 x))) + (j.+1 == s)%:R *: lr A (q0 x) s.-1.
  rewrite AQ; case: eqP => [e|_]; last by rewrite !scale0r.
  by rewrite (_ : s.-1 = j) //; lia.
have E : polymx p A *m (q0 x) = Qm A (q0 x) s *m (polymx p (jacobi s (la A (q0 x)) (lb A (q0 x))) *m (delta_mx j0 0 : 'cV[F]_s)).
  rewrite -{1}(@Qm_e0 j0) //; case: hp => [[sd' hp]|hl].
    by apply: (krylov_fun AQ') => //; rewrite sd'.
  by apply: (inv_fun AQ') => //; exact: lr_last.
by rewrite -E scalemxAr startK.
Qed.
End Run.
End A.
End L.
