(* The front end on fresh buffers; T = Q^T A Q; equivariance of the recurrence. *)
From mathcomp Require Import all_ssreflect all_algebra zify ring.
From Verif Require Import Base ModelXtrace LemXtrace ModelLanczos LemLanczos SpecLanczos LemLanczos2 LemLanczos3.
Set Implicit Arguments.
Unset Strict Implicit.
Unset Printing Implicit Defensive.
Import Order.TTheory GRing.Theory Num.Theory.
Local Open Scope ring_scope.

Section T.
Variable F : rcfType.
Variable n : nat.
Variable A : 'M[F]_n.
Variable q0 : 'cV[F]_n.
Hypothesis symA : A^T = A.
Hypothesis q0u : dt q0 q0 = 1.
Variable k : nat.
Hypothesis hb : forall i, (0 < i < k)%N -> lb A q0 i != 0.
Local Notation lq := (lq A q0).
Local Notation la := (la A q0).
Local Notation lb := (lb A q0).
Local Notation lr := (lr A q0).

Lemma lq_ortho i j : (i < k)%N -> (j < k)%N -> dt (lq i) (lq j) = (i == j)%:R.
Proof.
move=> hi hj; apply: (@lanczos_orthonormal _ _ _ _ symA k.-1) => //; try lia.
by move=> l hl; apply: hb; lia.
Qed.

Lemma lr_ortho i j : (i <= j)%N -> (j < k)%N -> dt (lr j) (lq i) = 0.
Proof. by move=> hi hj; apply: (@resid_orth _ _ _ _ symA j) => // l hl; apply: hb; lia. Qed.

Lemma sum_pick (f : nat -> 'cV[F]_n) m : \sum_(i < k) (i == m :> nat)%:R *: f i = if (m < k)%N then f m else 0.
Proof.
case: ltnP => h.
  by rewrite (bigD1 (Ordinal h)) //= eqxx scale1r big1 ?addr0 // => i ne; rewrite (_ : (i == m :> nat) = false) ?scale0r //; exact: negbTE.
by rewrite big1 // => i _; rewrite (_ : (i == m :> nat) = false) ?scale0r //; have := ltn_ord i; lia.
Qed.

Lemma jacobiE (d e : nat -> F) (i j : 'I_k) :
  jacobi k d e i j = (i == j :> nat)%:R * d j + (i.+1 == j)%:R * e j + (i == j.+1 :> nat)%:R * e j.+1.
Proof.
rewrite mxE; case: eqP => [->|ne]; first by rewrite (_ : (j.+1 == j) = false) 1?(_ : (j == j.+1 :> nat) = false) /=; [ring|lia|lia].
case: eqP => [e1|ne1]; first by rewrite (_ : (i == j.+1 :> nat) = false) /=; [ring|lia].
by rewrite eq_sym; case: eqP => [->|_] /=; ring.
Qed.

Lemma A_lq (j : 'I_k) : A *m lq j = \sum_(i < k) jacobi k la lb i j *: lq i + (j.+1 == k)%:R *: lr j.
Proof.
have hj := ltn_ord j.
have E (i : 'I_k) : jacobi k la lb i j *: lq i = la j *: ((i == j :> nat)%:R *: lq i) + lb j *: ((i.+1 == j)%:R *: lq i)
   + lb j.+1 *: ((i == j.+1 :> nat)%:R *: lq i).
  by rewrite jacobiE !scalerDl !scalerA; congr (_ + _ + _); rewrite mulrC.
rewrite (eq_bigr _ (fun i _ => E i)) !big_split /= -!scaler_sumr (sum_pick lq j) (sum_pick lq j.+1) hj.
have -> : A *m lq j = la j *: lq j + lb j *: lp A q0 j + lr j by rewrite lrE; apply/colP => i; rewrite !mxE; ring.
have -> : \sum_(i < k) (i.+1 == j)%:R *: lq i = if (0 < j)%N then lp A q0 j else 0.
  case: (nat_of_ord j) hj => [|m] hm; first by rewrite big1 // => i _; rewrite scale0r.
  rewrite lpS (eq_bigr (fun i : 'I_k => (i == m :> nat)%:R *: lq i)) ?(sum_pick lq m) ?(ltnW hm) //.
have -> : lb j *: (if (0 < j)%N then lp A q0 j else 0) = lb j *: lp A q0 j.
  by case: posnP => // ->; rewrite lb0 !scale0r.
rewrite -!addrA; congr (_ + (_ + _)); have [h|h] := ltnP j.+1 k.
  by rewrite ltn_eqF // scale0r addr0 resid_scaled // hb //; lia.
by rewrite (_ : j.+1 == k) ?scaler0 ?add0r ?scale1r //; lia.
Qed.

Definition Qm : 'M[F]_(n, k) := \matrix_(i, j) lq j i 0.

Lemma col_Qm j : col j Qm = lq j.
Proof. by apply/colP => i; rewrite !mxE. Qed.

Lemma Qm_mul (x : 'cV_k) : Qm *m x = \sum_j x j 0 *: lq j.
Proof. by apply/colP => i; rewrite mxE summxE; apply: eq_bigr => j _; rewrite !mxE mulrC. Qed.

Lemma QTQ : Qm^T *m Qm = 1%:M.
Proof.
apply/matrixP => i j; rewrite !mxE -val_eqE /= -lq_ortho // dtE; apply: eq_bigr => l _; by rewrite !mxE.
Qed.

Lemma A_Qm j : A *m col j Qm = Qm *m col j (jacobi k la lb) + (j.+1 == k)%:R *: lr j.
Proof. by rewrite col_Qm A_lq Qm_mul; congr (_ + _); apply: eq_bigr => i _; rewrite [col _ _ _ _]mxE. Qed.

Lemma QT_lr : (0 < k)%N -> Qm^T *m lr k.-1 = 0.
Proof.
move=> k0; apply/colP => i; rewrite !mxE; have := @lr_ortho i k.-1; rewrite dtE => h.
rewrite -[RHS]h; [|have := ltn_ord i; lia|lia]; apply: eq_bigr => l _; by rewrite !mxE mulrC.
Qed.

Lemma QTAQ : Qm^T *m A *m Qm = jacobi k la lb.
Proof.
apply/matrixP => i j; have k0 : (0 < k)%N by exact: leq_ltn_trans (ltn_ord i).
rewrite -mulmxA; have -> : (Qm^T *m (A *m Qm)) i j = (Qm^T *m (A *m col j Qm)) i 0.
  by rewrite -col_mul !mxE; apply: eq_bigr => l _; rewrite !mxE.
rewrite A_Qm mulmxDr mulmxA QTQ mul1mx mxE [col j _ i 0]mxE [X in _ + X = _](_ : _ = 0) ?addr0 //.
rewrite -scalemxAr; case: eqP => [e|_]; last by rewrite scale0r mxE.
by rewrite scale1r (_ : nat_of_ord j = k.-1) ?QT_lr ?mxE //; lia.
Qed.
End T.

(* ---- equivariance of the recurrence ----------------------------------------------- *)
Section Equi.
Variable F : rcfType.
Variable n : nat.
Implicit Types (A : 'M[F]_n) (q x : 'cV[F]_n).

Definition unitor0 q : Prop := inner q q = 1 \/ q = 0.

Lemma unit_start x : unitor0 (start x).
Proof.
have [->|h] := eqVneq x 0; first by right; rewrite /start scaler0.
by left; rewrite innerE start_unit.
Qed.

Lemma lq_unit A q0 j : unitor0 q0 -> unitor0 (lq A q0 j).
Proof. by case: j => [|j] h; [rewrite lq0|rewrite lqS lbS; exact: unit_start]. Qed.

Lemma unitor0E q : unitor0 q -> inner q q *: q = q.
Proof. by case=> [->|->]; rewrite ?scale1r ?scaler0. Qed.

Lemma innerD q x y : inner q (x + y) = inner q x + inner q y.
Proof. by rewrite !innerE dtDr. Qed.
Lemma innerZ (c : F) q x : inner q (c *: x) = c * inner q x.
Proof. by rewrite !innerE dtZr. Qed.

Lemma tri_shift A (s : F) q0 j : unitor0 q0 -> tri (A + s%:M) q0 j = tri A q0 j.
Proof.
move=> u0; elim: j => [//|j IH] /=; rewrite IH; have := @lq_unit A q0 j u0; rewrite /SpecLanczos.lq.
case: (tri A q0 j) => [[qp q] b] /= u.
have -> : tri_resid (A + s%:M) qp q b = tri_resid A qp q b; last by [].
rewrite /tri_resid mulmxDl mul_scalar_mx (_ : A *m q + s *: q - b *: qp = (A *m q - b *: qp) + s *: q); last by rewrite addrAC.
move: (A *m q - b *: qp) => w; rewrite innerD innerZ scalerDl -scalerA (unitor0E u).
by rewrite opprD addrACA subrr addr0.
Qed.

Lemma la_shift A (s : F) q0 j : unitor0 q0 -> la (A + s%:M) q0 j = la A q0 j + s * inner (lq A q0 j) (lq A q0 j).
Proof.
move=> u; rewrite /la /lq tri_shift //; case: (tri A q0 j) => [[qp q] b] /=.
by rewrite mulmxDl mul_scalar_mx addrAC innerD innerZ.
Qed.

Lemma vnormZ (c : F) x : vnorm (c *: x) = `|c| * vnorm x.
Proof. by rewrite !vnormE dtZl dtZr mulrA -expr2 sqrtrM ?sqr_ge0 // sqrtr_sqr. Qed.

Lemma vnormN x : vnorm (- x) = vnorm x.
Proof. by rewrite -scaleN1r vnormZ normrN1 mul1r. Qed.

Lemma tri_scale A (c : F) q0 j : 0 < c ->
  tri (c *: A) q0 j = let: (qp, q, b) := tri A q0 j in (qp, q, c * b).
Proof.
move=> c0; elim: j => [|j IH] /=; first by rewrite mulr0.
rewrite IH; case: (tri A q0 j) => [[qp q] b] /=.
have -> : tri_resid (c *: A) qp q (c * b) = c *: tri_resid A qp q b.
  rewrite /tri_resid -scalemxAl -scalerA -scalerBr innerZ -[c * _ *: q]scalerA -scalerBr //.
rewrite vnormZ gtr0_norm // invfM scalerA; congr (_, _ *: _, _).
by rewrite mulrAC mulVf ?mul1r // gt_eqF.
Qed.

Lemma la_scale A (c : F) q0 j : 0 < c -> la (c *: A) q0 j = c * la A q0 j.
Proof.
move=> c0; rewrite /la tri_scale //; case: (tri A q0 j) => [[qp q] b].
by rewrite -scalemxAl -scalerA -scalerBr innerZ.
Qed.

Lemma tri_neg A q0 j : tri A (- q0) j = let: (qp, q, b) := tri A q0 j in (- qp, - q, b).
Proof.
elim: j => [|j IH] /=; first by rewrite oppr0.
rewrite IH; case: (tri A q0 j) => [[qp q] b] /=.
have -> : tri_resid A (- qp) (- q) b = - tri_resid A qp q b.
  rewrite /tri_resid mulmxN scalerN (_ : - (A *m q) - - (b *: qp) = - (A *m q - b *: qp)); last by rewrite opprB opprK addrC.
  move: (A *m q - b *: qp) => w; rewrite (_ : inner (- q) (- w) = inner q w); first by rewrite scalerN opprB addrC opprK.
  by rewrite !innerE -!scaleN1r dtZl dtZr mulrA mulrNN mulr1 mul1r.
by rewrite vnormN scalerN.
Qed.

Lemma la_neg A q0 j : la A (- q0) j = la A q0 j.
Proof.
rewrite /la tri_neg; case: (tri A q0 j) => [[qp q] b].
rewrite mulmxN scalerN (_ : - (A *m q) - - (b *: qp) = - (A *m q - b *: qp)); last by rewrite opprB opprK addrC.
by rewrite !innerE -!scaleN1r dtZl dtZr mulrA mulrNN mulr1 mul1r.
Qed.

Lemma start_scale (c : F) x : 0 < c -> start (c *: x) = start x.
Proof. by move=> c0; rewrite /start vnormZ gtr0_norm // invfM scalerA mulrAC mulVf ?mul1r // gt_eqF. Qed.
Lemma start_neg x : start (- x) = - start x.
Proof. by rewrite /start vnormN scalerN. Qed.
End Equi.

(* ---- the front end, fresh buffers --------------------------------------------------- *)
Section Run.
Variable F : rcfType.
Variable eps : F.
Variable G : Type.
Variable unif : G -> rat * G.
Local Notation fresh := (LWork (F := F) None None None true).

Lemma colv0 n l c : colv n (nseq l 0 : seq F) c = 0.
Proof. by apply/colP => i; rewrite !mxE nth_nseq if_same. Qed.

(* the kernel writes to the arrays allocated by lanczos(): a single-precision
   operator, or start vector and operator both in double precision (cf. C78) *)
Definition kept (k : okind) (dA : dty) (dtype : option dty) : Prop :=
  dA = F32 \/ dA = F64 /\ (dtype = Some F64 \/ dtype = None /\ forall d, k = KObject d -> d = F64).

Lemma resolve_kept k dA dtype : kept k dA dtype ->
  exists bd, resolve k (if dtype is Some d then d else product_dtype k) dA true = Some bd /\ b_out bd.
Proof.
case=> [->|[-> [->|[-> h]]]].
- by case: k => [||[]]; case: dtype => [[]|]; eexists.
- by case: k => [||d]; eexists.
- by case: k h => [||d] h; [eexists|eexists|rewrite /= (h d erefl); eexists].
Qed.

Lemma kept_dtype k dA dtype : kept k dA dtype -> dA <> OtherDtype.
Proof. by case=> [->|[-> _]]. Qed.

(* no residual vanishes before step k *)
Definition unbroken n (A : 'M[F]_n) q0 (k : nat) : Prop := forall i, (0 < i < k)%N -> lb A q0 i != 0.

Lemma unbroken_tol n (A : 'M[F]_n) q0 tol deg k : 0 < tol -> stop_at A q0 tol deg k -> unbroken A q0 k.
Proof. by move=> t0 [_ h _] i hi; rewrite gt_eqF // (lt_le_trans t0) // h. Qed.

Definition okeep (d : int) (orth : int) (rb : bool) : nat :=
  `|(if rb then d else npclip (if (orth < 0)%R || (d < orth)%R then d else orth) 2 d)|%N.

Lemma lanczos_call_run n (A : 'M[F]_n) kd dA v (deg : option int) (rtol : F) orth rb dtype g k :
  A^T = A -> 0 <= eps -> size v = n -> cvec n v != 0 -> kept kd dA dtype ->
  let de := (if deg is Some d then Num.min d n%:Z else n%:Z) : int in 0 < de ->
  let q0 := start (cvec n v) in
  stop_at A q0 (Num.sqrt n%:R * rtol) `|de| k -> unbroken A q0 k ->
  let cn := okeep de orth rb in
  lanczos_call eps unif A kd dA (Some v) deg rtol orth rb dtype fresh g =
  Some (Ok (LBuf `|de| cn (mkseq (fun i => if (i < k)%N then la A q0 i else 0) (`|de|.+1))
     (mkseq (fun i => if (i <= k)%N then lb A q0 i else 0) (`|de|.+1))
     (flatV cn (fun c => if (c < k)%N then lq A q0 (slot cn k c) else 0)))).
Proof.
move=> sA e0 sv v0 hdt de de0 q0 hk ub cn; have hd := kept_dtype hdt.
rewrite /lanczos_call -/de de0 /= sv eqxx /= !size_nseq !eqxx /=.
have -> : (if dA is OtherDtype then true else false) = false by case: (dA) hd.
have [bd [-> bo]] := resolve_kept hdt.
rewrite -/(okeep de orth rb) -/cn; set o := if (orth < 0) || _ then _ else _.
have cn0 : (1 <= cn)%N /\ (2 <= de -> (2 <= cn)%N) by rewrite /cn /okeep /npclip; case: (rb); lia.
have E := @kernel_final F n A eps rtol `|de|%N o cn v (0 :: nseq `|de|%N 0) (0 :: nseq `|de|%N 0) (nseq (n * cn) 0) k.
rewrite (_ : (`|de|%N)%:Z = de) in E; last by lia.
rewrite E; first last.
- right; split=> //; last by right=> c _; right; exact: colv0.
  by move=> j i jk ij; apply: (@lr_ortho F n A q0 sA (start_unit v0) k).
- exact: hk.
- by split=> //=; rewrite ?size_nseq.
- by lia.
- by case: cn0.
rewrite bo /kfinal /=; congr (Some (Ok (LBuf _ _ _ _ _))).
- rewrite size_nseq; apply: mkseq_ext => i; case: ifP => // _; by case: i => //= i; rewrite nth_nseq if_same.
- rewrite size_nseq; apply: mkseq_ext => i; case: ifP => // _; by case: i => //= i; rewrite nth_nseq if_same.
- by apply: flatV_ext => c hc; case: ifP => // _; rewrite colv0 if_same.
Qed.
End Run.
