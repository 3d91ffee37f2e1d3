(* Properties C47 and C53 (Lanczos: basis of the Krylov space, Ritz values). *)
From mathcomp Require Import all_ssreflect all_algebra zify ring.
From Verif Require Import Base ModelXtrace LemXtrace ModelLanczos LemLanczos SpecLanczos LemLanczos2 LemLanczos3 LemLanczos4 PropLanczos.
Set Implicit Arguments.
Unset Strict Implicit.
Unset Printing Implicit Defensive.
Import Order.TTheory GRing.Theory Num.Theory.
Local Open Scope ring_scope.

Section PairOf.
Variable F : rcfType.
Lemma jacobi_ext k (d d' e e' : nat -> F) : (forall i, (i < k)%N -> d i = d' i) ->
  (forall i, (0 < i < k)%N -> e i = e' i) -> jacobi k d e = jacobi k d' e'.
Proof.
move=> hd he; apply/matrixP => i j; rewrite !mxE; case: eqP => [_|_]; first exact: hd.
case: eqP => [h|_]; first by apply: he; have := ltn_ord j; lia.
by case: eqP => [h|_ //]; apply: he; have := ltn_ord i; lia.
Qed.

Variables (n : nat) (A : 'M[F]_n) (v : seq F) (rtol : F).
Local Notation q0 := (start (cvec n v)).
Local Notation tol := (Num.sqrt n%:R * rtol).

Definition outbuf (d c s : nat) : lbuf F :=
  LBuf d c (mkseq (fun i => if (i < s)%N then la A q0 i else 0) d.+1)
     (mkseq (fun i => if (i <= s)%N then lb A q0 i else 0) d.+1)
     (flatV c (fun j => if (j < s)%N then lq A q0 (slot c s j) else 0)).

(* the returned pair *)
Lemma pair_ab d c s : (s <= d)%N ->
  let a := take d (o_alpha (outbuf d c s)) in let b := drop 1 (take d (o_beta (outbuf d c s))) in
  [/\ size a = d, size b = d.-1, forall i, (i < d)%N -> a`_i = (if (i < s)%N then la A q0 i else 0) &
      forall i, (i.+1 < d)%N -> b`_i = (if (i < s)%N then lb A q0 i.+1 else 0)].
Proof.
move=> sd a b; split.
- by rewrite size_takel // size_mkseq.
- by rewrite size_drop size_takel ?size_mkseq // subn1.
- by move=> i hi; rewrite nth_take // nth_mkseq // ltnW.
- by move=> i hi; rewrite nth_drop add1n nth_take // nth_mkseq // ltnW.
Qed.

(* what lanczos() returns: d diagonal and d-1 off-diagonal entries, of which the
   first s and min(s, d-1) are those of the textbook recurrence *)
Definition pair_of (d s : nat) (a b : seq F) : Prop :=
  [/\ size a = d, size b = d.-1, forall i, (i < d)%N -> a`_i = (if (i < s)%N then la A q0 i else 0) &
      forall i, (i.+1 < d)%N -> b`_i = (if (i < s)%N then lb A q0 i.+1 else 0)].

Lemma pair_det d s s' a b a' b' : stop_at A q0 tol d s -> stop_at A q0 tol d s' ->
  pair_of d s a b -> pair_of d s' a' b' -> a = a' /\ b = b'.
Proof.
move=> h1 h2; have e := stop_unique h1 h2; subst s' => - [sa sb na nb] [sa' sb' na' nb'].
split; apply: (@eq_from_nth _ 0); rewrite ?sa ?sb // => i hi; first by rewrite na ?na'.
by rewrite nb ?nb' //; lia.
Qed.

(* step i+1 was reached iff all the off-diagonal entries before are above the tolerance *)
Lemma reached d s a b i : stop_at A q0 tol d s -> pair_of d s a b -> (i < d)%N ->
  (i < s)%N = all (fun x => tol <= x) (take i b).
Proof.
move=> [sd hb hs] [_ sb _ nb] hi; apply/idP/allP.
  move=> is_ x /(nthP 0) [j]; rewrite size_take sb => hj; have ji : (j < i)%N by move: hj; case: ifP; lia.
  by rewrite nth_take // => <-; rewrite nb ?(ltn_trans ji is_) ?hb //; lia.
move=> H; rewrite ltnNge; apply/negP => si; case: hs => [e|hs]; first by lia.
have s0 : (0 < s)%N by lia.
have := H (lb A q0 s); rewrite leNgt hs => K; suff : false by []; apply: K.
have := nb s.-1; rewrite prednK // leqnn => <-; last by lia.
rewrite -(@nth_take i _ 0 s.-1) ?mem_nth //; last by lia.
by rewrite size_take sb; case: ifP; lia.
Qed.

Lemma full_steps d s a b : stop_at A q0 tol d s -> pair_of d s a b -> (0 < d)%N ->
  (forall x, x \in b -> tol <= x) -> s = d.
Proof.
move=> hs hp d0 hb; have [h1 _ _] := hs; apply/eqP; rewrite eqn_leq (andP h1).2 /=.
rewrite -(prednK d0) (@reached d s a b) //; [|lia].
by apply/allP => x /mem_take /hb.
Qed.

Lemma pair_T d a b : pair_of d d a b -> jacobi d (nth 0 a) (fun i => b`_i.-1) = jacobi d (la A q0) (lb A q0).
Proof.
move=> [sa sb na nb]; apply: jacobi_ext => i hi; first by rewrite na // hi.
case/andP: hi; case: i => // i _ hi; by rewrite nb // (ltnW hi).
Qed.
End PairOf.

Section P.
Variable F : rcfType.
Variable eps : F.
Hypothesis eps0 : 0 <= eps.
Variable G : Type.
Variable unif : G -> rat * G.
Local Notation fresh := (LWork (F := F) None None None true).
Local Notation lanczos_call := (@lanczos_call F eps G unif).
Local Notation lanczos := (@lanczos F eps G unif).

Lemma call_pre n m (A : 'M[F]_(n, m)) k dA v deg rtol orth rb dtype w g out :
  lanczos_call A k dA (Some v) deg rtol orth rb dtype w g = Some (Ok out) ->
  [/\ 0 < eff_deg m deg, dA <> OtherDtype & size v = m].
Proof.
rewrite /ModelLanczos.lanczos_call -/(eff_deg m deg).
by case: ifP => // /negbFE d0; case: ifP => // h; case: ifP => // /negbFE/eqP sv _; split=> // e; move: h; rewrite e.
Qed.

Section One.
Variables (n : nat) (A : 'M[F]_n) (k : okind) (dA : dty) (v : seq F) (deg : option int) (rtol : F) (orth : int)
  (rb : bool) (dtype : option dty) (g : G).
Hypothesis symA : A^T = A.
Hypothesis rtol0 : 0 < rtol.
Hypothesis v0 : (\col_(i < n) v`_i) != 0.
Hypothesis hdt : kept k dA dtype.
Let q0 : 'cV[F]_n := start (cvec n v).
Let tol := Num.sqrt n%:R * rtol.

Lemma n_pos : (0 < n)%N.
Proof. by case: n A v0 symA @q0 @tol => // A' h; case/eqP: h; apply/colP => - []. Qed.

Lemma tol_pos : 0 < tol.
Proof. by rewrite mulr_gt0 // sqrtr_gt0 ltr0n n_pos. Qed.

Lemma call_out out : lanczos_call A k dA (Some v) deg rtol orth rb dtype fresh g = Some (Ok out) ->
  exists d s, [/\ d%:Z = eff_deg n deg, stop_at A q0 tol d s, unbroken A q0 s &
    out = outbuf A v d (okeep d orth rb) s].
Proof.
move=> h; have [d0 hd sv] := call_pre h.
have [|s hs] := @stop_exists F n A q0 tol `|eff_deg n deg|%N; first by lia.
have ub := unbroken_tol tol_pos hs.
have := @lanczos_call_run F eps G unif n A k dA v deg rtol orth rb dtype g s symA eps0 sv v0 hdt d0 hs ub.
rewrite h => -[->]; exists `|eff_deg n deg|%N, s; split=> //; first by lia.
by rewrite /outbuf; have -> : (`|eff_deg n deg|%N)%:Z = eff_deg n deg by lia.
Qed.

Lemma out_call : size v = n -> 0 < eff_deg n deg -> exists s,
  [/\ stop_at A q0 tol `|eff_deg n deg|%N s, unbroken A q0 s &
    lanczos_call A k dA (Some v) deg rtol orth rb dtype fresh g = Some (Ok (outbuf A v `|eff_deg n deg|%N (okeep (eff_deg n deg) orth rb) s))].
Proof.
move=> sv d0.
have [|s hs] := @stop_exists F n A q0 tol `|eff_deg n deg|%N; first by lia.
have ub := unbroken_tol tol_pos hs; exists s; split=> //.
by rewrite (@lanczos_call_run F eps G unif n A k dA v deg rtol orth rb dtype g s symA eps0 sv v0 hdt d0 hs ub).
Qed.

Definition basis_of (d s : nat) : seq F :=
  flatV (okeep d orth rb) (fun j => if (j < s)%N then lq A q0 (slot (okeep d orth rb) s j) else 0).

Lemma pair_out r : lanczos A k dA (Some v) deg rtol orth false rb dtype fresh g = Some (Ok r) ->
  exists d s a b, [/\ d%:Z = eff_deg n deg /\ (0 < d)%N, stop_at A q0 tol d s, unbroken A q0 s, pair_of A v d s a b &
    r = if rb then LPairQ (a, b) (basis_of d s) else LPair a b].
Proof.
rewrite /ModelLanczos.lanczos; case E: (lanczos_call _ _ _ _ _ _ _ _ _ _ _) => [[out|e]|] // [<-].
have [d [s [de hs ub ->]]] := call_out E; exists d, s.
have sd : (0 < s <= d)%N by case: hs.
eexists; eexists; split; [|exact: hs|exact: ub|apply: (@pair_ab F n A v d (okeep d orth rb) s); lia|]; first by lia.
by rewrite /outbuf /basis_of /=; case: (rb).
Qed.

Lemma pair_run : size v = n -> 0 < eff_deg n deg ->
  exists s a b, [/\ stop_at A q0 tol `|eff_deg n deg|%N s, unbroken A q0 s, pair_of A v `|eff_deg n deg|%N s a b &
    lanczos A k dA (Some v) deg rtol orth false rb dtype fresh g = Some (Ok (if rb then LPairQ (a, b) (basis_of `|eff_deg n deg|%N s) else LPair a b))].
Proof.
move=> sv d0; have [s [hs ub E]] := out_call sv d0; exists s.
have sd : (0 < s <= `|eff_deg n deg|)%N by case: hs.
eexists; eexists; split; [exact: hs|exact: ub|apply: (@pair_ab F n A v `|eff_deg n deg|%N (okeep `|eff_deg n deg|%N orth rb) s); lia|].
rewrite /ModelLanczos.lanczos E /outbuf /basis_of /=.
by have -> : (`|eff_deg n deg|%N)%:Z = eff_deg n deg by lia; case: (rb).
Qed.

End One.

(* ---- C47 ------------------------------------------------------------------- *)
(* symmetric A, non-zero start vector, positive tolerance, any orth: if no
   returned off-diagonal entry is below the tolerance (no early stop), then the
   returned basis is orthonormal, starts with v/|v|, and represents A by the
   returned tridiagonal matrix, with a residual in the last column only *)
Theorem C47_krylov_basis n (A : 'M[F]_n) k dA (v : seq F) deg rtol orth dtype g (a b Q : seq F) :
  A^T = A -> 0 < rtol -> (\col_(i < n) v`_i) != 0 -> kept k dA dtype ->
  lanczos A k dA (Some v) deg rtol orth false true dtype fresh g = Some (Ok (LPairQ (a, b) Q)) ->
  (forall x, x \in b -> Num.sqrt n%:R * rtol <= x) ->
  let d := size a in
  let Qm : 'M[F]_(n, d) := \matrix_(i, j) Q`_(j * n + i) in
  let T : 'M[F]_d := jacobi d (nth 0 a) (fun i => b`_i.-1) in
  [/\ Qm^T *m Qm = 1%:M, Qm^T *m A *m Qm = T,
      (exists r : 'cV_n, Qm^T *m r = 0 /\ forall j, A *m col j Qm = Qm *m col j T + (j.+1 == d)%:R *: r),
      (forall j : 'I_d, j = 0%N :> nat -> col j Qm = (vnorm (\col_(i < n) v`_i))^-1 *: \col_(i < n) v`_i) &
      forall x, x \in b -> 0 < x].
Proof.
move=> sA r0 v0 hdt /(pair_out sA r0 v0 hdt) [d [s [a' [b' [[de d0] hs ub hp [-> -> ->]]]]]] hb.
have sd := full_steps hs hp d0 hb; subst s.
have u0 : dt (start (cvec n v)) (start (cvec n v)) = 1 := start_unit v0; have tp := tol_pos sA r0 v0; have TE := pair_T hp; have [sa _ _ _] := hp.
move: (size a') sa => d' e; subst d'.
cbv zeta; set Qx := \matrix_(i, j) _.
have QE : Qx = Qm A (start (cvec n v)) d.
  apply/matrixP => i j; rewrite !mxE /= /basis_of.
  have := @colv_flat F n (okeep d orth true) (fun j0 => if (j0 < d)%N then lq A (start (cvec n v)) (slot (okeep d orth true) d j0) else 0) j.
  rewrite {1}/okeep absz_nat => /(_ (ltn_ord j)) /colP /(_ i); rewrite mxE ltn_ord => ->.
  by rewrite slot_small //; rewrite /okeep; lia.
rewrite QE TE; split.
- exact: QTQ.
- exact: QTAQ.
- exists (lr A (start (cvec n v)) d.-1); split; first exact: QT_lr.
  move=> j; rewrite A_Qm //; congr (_ + _); case: eqP => [e|_]; last by rewrite !scale0r.
  by rewrite (_ : nat_of_ord j = d.-1) //; lia.
- by move=> j j0; rewrite col_Qm j0 lq0.
- by move=> x /hb; apply: lt_le_trans.
Qed.

(* ---- C53 ------------------------------------------------------------------- *)
Lemma quad_bound k (M : 'M[F]_k) (lo hi lam : F) :
  (forall y : 'cV[F]_k, lo * inner y y <= inner y (M *m y) <= hi * inner y y) -> M^T = M ->
  eigenvalue M lam -> lo <= lam <= hi.
Proof.
move=> H sM /eigenvalueP [x xM x0]; have y0 : x^T != 0 by rewrite -(inj_eq (can_inj (@trmxK F k 1))) trmxK trmx0.
have p0 : 0 < inner x^T x^T.
  by rewrite innerE lt_def dtge0 andbT; apply: contra_neq y0; exact: dt_eq0P.
have Mx : M *m x^T = lam *: x^T by rewrite -{1}sM -trmx_mul xM linearZ.
by have := H x^T; rewrite Mx innerZ !ler_pmul2r.
Qed.

Lemma jacobi_sym k (d e : nat -> F) : (jacobi k d e)^T = jacobi k d e.
Proof.
apply/matrixP => i j; rewrite !mxE eq_sym; case: eqP => [->//|ne].
by case: eqP => [h|h1]; case: eqP => [h2|h3] //; lia.
Qed.

Theorem C53_ritz_values_in_range n (A : 'M[F]_n) k dA (v : seq F) deg rtol orth dtype g (a b : seq F) (lo hi lam : F) :
  A^T = A -> 0 < rtol -> (\col_(i < n) v`_i) != 0 -> kept k dA dtype ->
  lanczos A k dA (Some v) deg rtol orth false false dtype fresh g = Some (Ok (LPair a b)) ->
  (forall x, x \in b -> Num.sqrt n%:R * rtol <= x) ->
  (forall y : 'cV[F]_n, lo * inner y y <= inner y (A *m y) <= hi * inner y y) ->
  eigenvalue (jacobi (size a) (nth 0 a) (fun i => b`_i.-1)) lam -> lo <= lam <= hi.
Proof.
move=> sA r0 v0 hdt /(pair_out sA r0 v0 hdt) [d [s [a' [b' [[de d0] hs ub hp [-> ->]]]]]] hb hA.
have sd := full_steps hs hp d0 hb; subst s.
have u0 : dt (start (cvec n v)) (start (cvec n v)) = 1 := start_unit v0; have [-> _ _ _] := hp; rewrite (pair_T hp).
rewrite -(QTAQ sA u0 ub); apply: quad_bound; last by rewrite (QTAQ sA u0 ub) jacobi_sym.
move=> y; have := hA (Qm A (start (cvec n v)) d *m y); have := QTQ sA u0 ub.
move: (Qm _ _ _) => Q QQ; rewrite !innerE /dt trmx_mul -!mulmxA [Q^T *m (Q *m y)]mulmxA QQ mul1mx.
by rewrite !mulmxA.
Qed.
End P.

Print Assumptions C47_krylov_basis.
Print Assumptions C53_ritz_values_in_range.
