(* Leave-one-out projectors, and the algebra behind _xtrace and xdiag. *)
From Coq Require Import String.
From mathcomp Require Import all_ssreflect all_algebra zify ring.
From Verif Require Import Base Spec ModelTyping ModelRandom ModelTrace ModelHutchpp ModelXtrace.
Set Implicit Arguments.
Unset Strict Implicit.
Unset Printing Implicit Defensive.
Import Order.TTheory GRing.Theory Num.Theory.
Local Open Scope ring_scope.

Lemma col_mul (F : rcfType) r m k (X : 'M[F]_(r, m)) (Y : 'M[F]_(m, k)) i : col i (X *m Y) = X *m col i Y.
Proof. by apply/colP => l; rewrite !mxE; apply: eq_bigr => j _; rewrite mxE. Qed.

Section Dot.
Variable F : rcfType.
Definition dt n (x y : 'cV[F]_n) : F := (x^T *m y) 0 0.
Section N.
Variable n : nat.
Implicit Types x y z : 'cV[F]_n.
Lemma dtE x y : dt x y = \sum_i x i 0 * y i 0.
Proof. by rewrite /dt mxE; apply: eq_bigr => i _; rewrite mxE. Qed.
Lemma dtC x y : dt x y = dt y x.
Proof. by rewrite !dtE; apply: eq_bigr => i _; rewrite mulrC. Qed.
Lemma dtDr x y z : dt x (y + z) = dt x y + dt x z.
Proof. by rewrite /dt mulmxDr mxE. Qed.
Lemma dtNr x y : dt x (- y) = - dt x y.
Proof. by rewrite /dt mulmxN mxE. Qed.
Lemma dtBr x y z : dt x (y - z) = dt x y - dt x z.
Proof. by rewrite dtDr dtNr. Qed.
Lemma dtZr a x y : dt x (a *: y) = a * dt x y.
Proof. by rewrite /dt -scalemxAr mxE. Qed.
Lemma dtDl x y z : dt (x + y) z = dt x z + dt y z.
Proof. by rewrite ![dt _ z]dtC dtDr. Qed.
Lemma dtBl x y z : dt (x - y) z = dt x z - dt y z.
Proof. by rewrite ![dt _ z]dtC dtBr. Qed.
Lemma dtZl a x y : dt (a *: x) y = a * dt x y.
Proof. by rewrite ![dt _ y]dtC dtZr. Qed.
End N.
Lemma dtM m n (M : 'M[F]_(m, n)) x y : dt x (M *m y) = dt (M^T *m x) y.
Proof. by rewrite /dt trmx_mul trmxK mulmxA. Qed.
Lemma dt_scal n (x y z : 'cV[F]_n) : x *m (y^T *m z) = dt y z *: x.
Proof. by rewrite [y^T *m z]mx11_scalar mul_mx_scalar. Qed.
Lemma tr_dt n (x : 'cV[F]_n) (M : 'M[F]_n) : \tr (x *m x^T *m M) = dt x (M *m x).
Proof. by rewrite -mulmxA mxtrace_mulC /dt -mulmxA /mxtrace big_ord_recl big_ord0 addr0. Qed.

Lemma diag_prodE r m (X Y : 'M[F]_(r, m)) i : diag_prod X Y i 0 = dt (col i X) (col i Y).
Proof. by rewrite mxE dtE; apply: eq_bigr => l _; rewrite !mxE. Qed.

Lemma col_normE r m (X : 'M[F]_(r, m)) i : col_norm X i 0 ^+ 2 = dt (col i X) (col i X).
Proof.
rewrite mxE sqr_sqrtr ?sumr_ge0 // => [|l _]; last exact: sqr_ge0.
by rewrite dtE; apply: eq_bigr => l _; rewrite !mxE expr2.
Qed.
End Dot.

Section Loo.
Variable F : rcfType.
Variables n m : nat.

(* P is the orthogonal projector onto the span of the columns of Y other than
   the i-th: symmetric, the identity on those columns, with values in their span *)
Definition loo_projector (Y : 'M[F]_(n, m)) (i : 'I_m) (P : 'M[F]_n) : Prop :=
  [/\ P^T = P, forall j, j != i -> P *m col j Y = col j Y &
      exists X : 'M[F]_(m, n), row i X = 0 /\ P = Y *m X].

Lemma loo_absorb (Y : 'M[F]_(n, m)) i P P' : loo_projector Y i P -> loo_projector Y i P' -> P *m P' = P'.
Proof.
case=> _ h _ [_ _ [X [hX ->]]]; apply/matrixP => a b; rewrite mulmxA !mxE.
apply: eq_bigr => j _; have [->|ji] := eqVneq j i.
  by move/rowP/(_ b): hX; rewrite !mxE => ->; rewrite !mulr0.
by have /matrixP/(_ a 0) := h j ji; rewrite -col_mul mxE [RHS]mxE => ->.
Qed.

Lemma loo_unique (Y : 'M[F]_(n, m)) i P P' : loo_projector Y i P -> loo_projector Y i P' -> P = P'.
Proof.
move=> h h'; have e := loo_absorb h h'; have e' := loo_absorb h' h.
have [s _ _] := h; have [s' _ _] := h'.
by rewrite -e' -{1}s' -{1}s -trmx_mul e s'.
Qed.

Variables (Q : 'M[F]_(n, m)) (R Ri : 'M[F]_m).
Hypothesis QQ : Q^T *m Q = 1%:M.
Hypothesis RiR : Ri *m R = 1%:M.
Local Notation S := (sphericalS Ri).
Local Notation s i := (col i S).

Let nu i := Num.sqrt (\sum_k Ri i k ^+ 2).

Lemma nu_neq0 i : nu i != 0.
Proof.
apply/negP => /eqP; rewrite /nu => /eqP; rewrite sqrtr_eq0 => h.
have h0 : \sum_k Ri i k ^+ 2 == 0 by rewrite eq_le h sumr_ge0 // => k _; exact: sqr_ge0.
move: h0; rewrite psumr_eq0 => [|k _]; last exact: sqr_ge0.
move/allP => hz; have : (Ri *m R) i i = 0.
  rewrite mxE big1 // => k _; have := hz k (mem_index_enum _); rewrite expf_eq0 /= => /eqP ->; exact: mul0r.
by rewrite RiR mxE eqxx => /eqP; rewrite oner_eq0.
Qed.

Lemma s_unit i : dt (s i) (s i) = 1.
Proof.
rewrite dtE (eq_bigr (fun l => Ri i l ^+ 2 / nu i ^+ 2)) => [|l _]; last first.
  by rewrite !mxE -/(nu i) expr2 mulrACA -invfM -!expr2.
rewrite -big_distrl /= /nu sqr_sqrtr ?mulfV //; last by rewrite sumr_ge0 // => l _; exact: sqr_ge0.
by have := nu_neq0 i; rewrite -sqrf_eq0 /nu sqr_sqrtr // sumr_ge0 // => l _; exact: sqr_ge0.
Qed.

Lemma s_orth i j : j != i -> dt (s i) (col j R) = 0.
Proof.
move=> ji; rewrite dtE (eq_bigr (fun l => (Ri i l * R l j) / nu i)) => [|l _]; last by rewrite !mxE mulrAC.
by rewrite -big_distrl /=; have /matrixP/(_ i j) := RiR; rewrite !mxE eq_sym (negPf ji) => ->; rewrite mul0r.
Qed.

Definition loo i : 'M[F]_n := Q *m (1%:M - s i *m (s i)^T) *m Q^T.

Lemma loo_ok i : loo_projector (Q *m R) i (loo i).
Proof.
split.
- by rewrite /loo !trmx_mul trmxK linearB /= trmx1 trmx_mul trmxK mulmxA.
- move=> j ji; rewrite /loo col_mul -!mulmxA [Q^T *m (Q *m _)]mulmxA QQ mul1mx mulmxBl mul1mx.
  by rewrite -mulmxA dt_scal s_orth // scale0r subr0.
have RRi : R *m Ri = 1%:M by exact: mulmx1C.
exists (Ri *m (1%:M - s i *m (s i)^T) *m Q^T); split; last first.
  by rewrite /loo -!mulmxA [R *m (Ri *m _)]mulmxA RRi mul1mx.
have -> : row i (Ri *m (1%:M - s i *m (s i)^T) *m Q^T) = row i Ri *m (1%:M - s i *m (s i)^T) *m Q^T.
  by rewrite -!row_mul.
have -> : row i Ri = nu i *: (s i)^T.
  by apply/rowP => k; rewrite !mxE -/(nu i) mulrCA mulfV ?nu_neq0 // mulr1.
rewrite -!scalemxAl mulmxBr mulmx1 mulmxA.
have -> : (s i)^T *m s i = 1%:M by rewrite [_ *m _]mx11_scalar -/(dt _ _) s_unit.
by rewrite mul1mx subrr mul0mx scaler0.
Qed.

Variables (A : 'M[F]_n) (W : 'M[F]_(n, m)).
Hypothesis QR : Q *m R = A *m W.

Lemma tr_loo i : \tr (loo i *m A) = \tr (Q^T *m (A *m Q)) - dt (s i) ((Q^T *m (A *m Q)) *m s i).
Proof.
rewrite /loo -!mulmxA mxtrace_mulC -!mulmxA mulmxBl mul1mx linearB /=; congr (_ - _).
by rewrite tr_dt !mulmxA.
Qed.

Lemma resid_loo i :
  let w := col i W in
  let p := col i (Q^T *m W) in
  let r := col i R in
  let H := Q^T *m (A *m Q) in
  let t := col i ((A *m Q)^T *m W) in
  let d := dt (s i) p in
  dt ((1%:M - loo i) *m w) (A *m ((1%:M - loo i) *m w)) =
  - dt t p + dt p (H *m p) + d * (dt (s i) r - dt (s i) (H *m p)) + d ^+ 2 * dt (s i) (H *m s i) +
  (dt t (s i) - dt p (H *m s i)) * d.
Proof.
move=> w p r H t d; pose v := p - d *: s i.
have ep : Q^T *m w = p by rewrite /p col_mul.
have ew : (1%:M - loo i) *m w = w - Q *m v.
  rewrite mulmxBl mul1mx /loo -!mulmxA ep mulmxBl mul1mx -mulmxA dt_scal.
  by rewrite mulmxBr.
have eA : A *m (w - Q *m v) = Q *m r - (A *m Q) *m v.
  by rewrite mulmxBr /w /r -!col_mul -QR mulmxA.
rewrite ew eA dtBr !dtM.
have -> : Q^T *m (w - Q *m v) = d *: s i.
  by rewrite mulmxBr ep mulmxA QQ mul1mx /v opprB addrCA subrr addr0.
have -> : (A *m Q)^T *m (w - Q *m v) = t - H^T *m v.
  by rewrite mulmxBr /t col_mul /H !trmx_mul trmxK !mulmxA.
rewrite dtZl dtBl -dtM {1 2 3}/v !mulmxBr -!scalemxAr !dtBr !dtBl !dtZr !dtZl.
rewrite [dt p (H *m p)]dtM; move: (dt (s i) r) (dt t p) (dt t (s i)) (dt (H^T *m p) p).
move: (dt (H^T *m s i) p) (dt (H^T *m p) (s i)) (dt (H^T *m s i) (s i)) (d : F) => a b c e f g h k.
by ring.
Qed.

(* the value computed for probe i, without rescaling *)
Lemma helper_loo i pdf : (if pdf is VName t then (t =? "sphere")%string else false) = false ->
  xtrace_helper W (A *m Q) Q R Ri pdf i 0 =
  \tr (loo i *m A) + dt (col i W) ((1%:M - loo i) *m A *m (1%:M - loo i) *m col i W).
Proof.
move=> hp; have [sy _ _] := loo_ok i.
have -> : dt (col i W) ((1%:M - loo i) *m A *m (1%:M - loo i) *m col i W) =
   dt ((1%:M - loo i) *m col i W) (A *m ((1%:M - loo i) *m col i W)).
  by rewrite -!mulmxA dtM linearB /= trmx1 sy.
rewrite /xtrace_helper hp [LHS]mxE !diag_prodE mxE mulr1 tr_loo resid_loo real_normK ?num_real //.
rewrite !linearB /= !dtBl !dtBr ![col i (_ *m _ *m _)]col_mul !col_mul.
by rewrite [dt (Q^T *m col i W) (_ *m s i)]dtM.
Qed.
End Loo.
