(* C95: the native operators compute the products they stand for, in place and within bounds. *)
From mathcomp Require Import all_ssreflect all_algebra zify ring.
From Verif Require Import ModelNative.
Set Implicit Arguments.
Unset Strict Implicit.
Unset Printing Implicit Defensive.
Import GRing.Theory.
Local Open Scope ring_scope.

Section P.
Variable F : fieldType.
Implicit Types (m : seq F).

(* m' is m with the entries p, .., p+n-1 replaced by f 0, .., f (n-1) *)
Definition written m m' (p n : nat) (f : nat -> F) : Prop :=
  size m' = size m /\ forall i, m'`_i = if (p <= i < p + n)%N then f (i - p)%N else m`_i.

(* entry i of the product of M with the array at p *)
Definition prod_at r c (M : 'M[F]_(r, c)) m (p i : nat) : F :=
  if insub i is Some i' then \sum_(j < c) M i' j * m`_(p + j) else 0.

Lemma window_nth m p len s j : window m p len = Some s -> (j < len)%N -> s`_j = m`_(p + j).
Proof. by rewrite /window; case: ifP => // _ [<-] h; rewrite nth_take // nth_drop. Qed.

Lemma windowP m p len : (exists s, window m p len = Some s) <-> (p + len <= size m)%N.
Proof. by rewrite /window; split=> [[s]|->]; [case: ifP|eexists]. Qed.

Lemma storeP m p xs : (p + size xs <= size m)%N -> exists m', store m p xs = Some m' /\ written m m' p (size xs) (nth 0 xs).
Proof.
move=> h; rewrite /store h; eexists; split; first by [].
have tp : size (take p m) = p by rewrite size_takel // (leq_trans _ h) // leq_addr.
split=> [|i]; first by rewrite !size_cat tp size_drop addnA subnKC.
rewrite !nth_cat tp; case: ltnP => ip; first by rewrite /= nth_take.
rewrite /= ltn_subLR //; case: ltnP => // q; rewrite nth_drop; congr (m`_ _); lia.
Qed.

Lemma store_none m p xs : store m p xs = None <-> ~~ (p + size xs <= size m)%N.
Proof. by rewrite /store; case: ifP. Qed.

Lemma size_seq_of n (v : 'cV[F]_n) : size (seq_of v) = n.
Proof. by rewrite size_map size_enum_ord. Qed.

Lemma nth_seq_of n (v : 'cV[F]_n) (i : 'I_n) : (seq_of v)`_i = v i 0.
Proof. by rewrite (nth_map i) ?size_enum_ord // nth_ord_enum. Qed.

Lemma written_ext m m' p n f g : (forall i, (i < n)%N -> f i = g i) -> written m m' p n f -> written m m' p n g.
Proof.
move=> h [s w]; split=> // i; rewrite w; case: ifP => // /andP[h1 h2]; apply: h; lia.
Qed.

(* any product written at out *)
Lemma product r c (M : 'M[F]_(r, c)) m inp out : (inp + c <= size m)%N -> (out + r <= size m)%N ->
  exists m', obind (fun x => store m out (seq_of (M *m vec_of c x))) (window m inp c) = Some m' /\
    written m m' out r (prod_at M m inp).
Proof.
move=> /windowP[s hs] ho; rewrite hs /=; have [|m' [-> w]] := @storeP m out (seq_of (M *m vec_of c s)); first by rewrite size_seq_of.
exists m'; split=> //; rewrite size_seq_of in w; apply: written_ext w => i hi.
rewrite -[i]/(val (Ordinal hi)) nth_seq_of /prod_at valK mxE; apply: eq_bigr => j _; rewrite mxE.
by rewrite (window_nth hs).
Qed.

Lemma product_undef r c (M : 'M[F]_(r, c)) m inp out : ~~ ((inp + c <= size m)%N && (out + r <= size m)%N) ->
  obind (fun x => store m out (seq_of (M *m vec_of c x))) (window m inp c) = None.
Proof.
rewrite /window; case: ifP => //= _ h; apply/store_none; by rewrite size_seq_of.
Qed.

Lemma nth_blocks (f : nat -> seq F) r k a l i : (forall j, size (f j) = r) -> (l < k)%N -> (i < r)%N ->
  (flatten [seq f j | j <- iota a k])`_(l * r + i) = (f (a + l)%N)`_i.
Proof.
move=> sf; elim: k a l => [//|k IH] a [|l] lk ir /=; rewrite nth_cat sf; first by rewrite mul0n add0n ir addn0.
by rewrite mulSn -addnA ltnNge leq_addr /= addKn IH // addSnnS.
Qed.

Lemma size_blocks (f : nat -> seq F) r k a : (forall j, size (f j) = r) -> size (flatten [seq f j | j <- iota a k]) = (r * k)%N.
Proof. by move=> sf; elim: k a => [|k IH] a /=; rewrite ?muln0 // size_cat sf IH mulnS. Qed.

Section Op.
Variables (r c : nat) (A : 'M[F]_(r, c)).

(* dense and plain sparse operators, square or not, any memory and pointers: the output window receives A x
   (A^T x), nothing else changes, and the accesses are in bounds exactly if both windows are *)
Theorem C95_matvec m inp out gr (op := if gr then sparse_matvec A false else dense_matvec A) :
  if (inp + c <= size m)%N && (out + r <= size m)%N
  then exists m', op m inp out = Some m' /\ written m m' out r (prod_at A m inp)
  else op m inp out = None.
Proof.
have -> : op m inp out = obind (fun x => store m out (seq_of (A *m vec_of c x))) (window m inp c) by rewrite /op; case: gr {op}.
by case: ifP => [/andP[h1 h2]|/negbT h]; [exact: product|exact: product_undef].
Qed.

Theorem C95_rmatvec m inp out gr (op := if gr then sparse_rmatvec A false else dense_rmatvec A) :
  if (inp + r <= size m)%N && (out + c <= size m)%N
  then exists m', op m inp out = Some m' /\ written m m' out c (prod_at A^T m inp)
  else op m inp out = None.
Proof.
have -> : op m inp out = obind (fun x => store m out (seq_of (A^T *m vec_of r x))) (window m inp r) by rewrite /op; case: gr {op}.
by case: ifP => [/andP[h1 h2]|/negbT h]; [exact: product|exact: product_undef].
Qed.

(* y . (A x) = (A^T y) . x, for x at p and y at q in the same memory *)
Theorem C95_adjoint m p q o1 o2 m1 m2 :
  dense_matvec A m p o1 = Some m1 -> dense_rmatvec A m q o2 = Some m2 ->
  \sum_(i < r) m`_(q + i) * m1`_(o1 + i) = \sum_(j < c) m2`_(o2 + j) * m`_(p + j).
Proof.
move=> h1 h2; have := C95_matvec m p o1 false; rewrite /= h1; case: ifP => // _ [m1' [[<-] [_ w1]]].
have := C95_rmatvec m q o2 false; rewrite /= h2; case: ifP => // _ [m2' [[<-] [_ w2]]].
rewrite (eq_bigr (fun i : 'I_r => \sum_(j < c) m`_(q + i) * A i j * m`_(p + j))) => [|i _]; last first.
  rewrite w1 leq_addr ltn_add2l ltn_ord /= addKn /prod_at valK big_distrr /=; apply: eq_bigr => j _; exact: mulrA.
rewrite exchange_big /=; apply: eq_bigr => j _; rewrite w2 leq_addr ltn_add2l ltn_ord /= addKn /prod_at valK.
by rewrite big_distrl /=; apply: eq_bigr => i _; rewrite mxE [_ * A i j]mulrC.
Qed.

(* matmat: entry i of column l; in bounds exactly if both arrays are *)
Theorem C95_matmat m inp out k :
  if (inp + c * k <= size m)%N && (out + r * k <= size m)%N
  then exists m', native_matmat A m inp out k = Some m' /\
    written m m' out (r * k) (fun e => prod_at A m (inp + e %/ r * c) (e %% r))
  else native_matmat A m inp out k = None.
Proof.
rewrite /native_matmat /window; case: (leqP (inp + c * k) (size m)) => //= hi.
set X := take _ _; pose f j := seq_of (A *m vec_of c (col_of c X j)).
have sf j : size (f j) = r by exact: size_seq_of.
have sY := size_blocks k 0 sf; set Y := flatten _ in sY *.
case: ifP => ho; last by apply/store_none; rewrite sY ho.
have [|m' [-> w]] := @storeP m out Y; first by rewrite sY.
exists m'; split=> //; rewrite sY in w; apply: written_ext w => e he.
have r0 : (0 < r)%N by case: (r) he.
have el : (e %/ r < k)%N by rewrite ltn_divLR // mulnC.
have em : (e %% r < r)%N by rewrite ltn_mod.
rewrite {1}(divn_eq e r) nth_blocks // add0n -[(e %% r)%N]/(val (Ordinal em)) nth_seq_of /prod_at valK mxE.
apply: eq_bigr => j _; rewrite mxE /col_of nth_take // nth_drop /X nth_take ?nth_drop ?addnA //.
have : ((e %/ r).+1 * c <= k * c)%N by rewrite leq_mul2r el orbT.
by rewrite mulSn [(c * k)%N]mulnC; have := ltn_ord j; lia.
Qed.

(* matmat is k matvecs, if input and output do not overlap *)
Theorem C95_matmat_columns m inp out k m' :
  (inp + c * k <= out)%N || (out + r * k <= inp)%N -> native_matmat A m inp out k = Some m' ->
  foldl (fun o l => obind (fun w => dense_matvec A w (inp + l * c)%N (out + l * r)%N) o) (Some m) (iota 0 k) = Some m'.
Proof.
move=> dis hm; have := C95_matmat m inp out k; rewrite hm; case: ifP => // /andP[hi ho] [m1 [[<-] {m1} [sz w]]].
suff : forall a, (a <= k)%N -> exists m1,
   foldl (fun o l => obind (fun w => dense_matvec A w (inp + l * c)%N (out + l * r)%N) o) (Some m) (iota 0 a) = Some m1 /\
   written m m1 out (r * a) (fun e => prod_at A m (inp + e %/ r * c) (e %% r)).
  case/(_ k (leqnn k)) => m1 [-> [s1 w1]]; congr Some; apply: (@eq_from_nth _ 0); first by rewrite s1 sz.
  by move=> i _; rewrite w1 w.
elim=> [_|a IH ak]; first by exists m; rewrite muln0; split=> //; split=> // i; rewrite addn0 ltnNge andbN.
have {IH} [m1 [E [s1 w1]]] := IH (ltnW ak).
have b1 : (a.+1 * c <= k * c)%N by rewrite leq_mul2r ak orbT.
have b2 : (a.+1 * r <= k * r)%N by rewrite leq_mul2r ak orbT.
rewrite !mulSn ![(_ * k)%N]mulnC in b1 b2 hi ho dis.
rewrite -addn1 iotaD add0n foldl_cat E addn1.
have := C95_matvec m1 (inp + a * c) (out + a * r) false; rewrite /= s1 ifT; last by apply/andP; split; lia.
case=> m2 [E2 [s2 w2]]; exists m2; split=> //.
split=> [|i]; first by rewrite s2 s1.
rewrite w2 w1 mulnS [(r * a)%N]mulnC; case: (leqP out i) => oi /=; last first.
  by rewrite ifF //; apply/negbTE; lia.
have -> : (i < out + (r + a * r))%N = (i < out + a * r + r)%N by rewrite [(r + _)%N]addnC addnA.
have [ia|ia] := ltnP i (out + a * r) => /=; first by rewrite ltn_addr.
have [ir|//] := ltnP i (out + a * r + r).
have r0 : (0 < r)%N by lia.
have -> : (i - out = a * r + (i - (out + a * r)))%N by lia.
set e := (i - (out + a * r))%N; have er : (e < r)%N by lia.
rewrite divnMDl // modnMDl divn_small // modn_small // addn0 /prod_at; case: insub => // i'; apply: eq_bigr => j _.
by congr (_ * _); rewrite w1 ifF //; apply/negbTE; have := ltn_ord j; lia.
Qed.

(* the Gram variant: right for square matrices ... *)
Theorem C95_gram m inp out adj (op := if adj then sparse_rmatvec A true else sparse_matvec A true) :
  if (inp + c <= size m)%N && (out + c <= size m)%N
  then exists m', op m inp out = Some m' /\ written m m' out c (prod_at (A^T *m A) m inp)
  else op m inp out = None.
Proof.
have -> : op m inp out = obind (fun x => store m out (seq_of ((A^T *m A) *m vec_of c x))) (window m inp c).
  by rewrite /op; case: adj {op} => /=; case: (window _ _ _) => //= x; rewrite mulmxA.
by case: ifP => [/andP[h1 h2]|/negbT h]; [exact: product|exact: product_undef].
Qed.
End Op.

(* ... but it writes c numbers where shape() announces r: a caller that provides exactly that much is overrun,
   whenever the matrix has more columns than rows *)
Theorem C95_gram_shape_refuted r c (A : 'M[F]_(r, c)) m : (r < c)%N -> size m = (c + (native_shape A).1)%N ->
  sparse_matvec A true m 0 c = None /\ exists m', sparse_matvec A false m 0 c = Some m'.
Proof.
move=> rc /= sm; split.
  by have := C95_gram A m 0 c false; rewrite /= ifF // sm; apply/negbTE; lia.
by have := C95_matvec A m 0 c true; rewrite /= ifT ?sm ?add0n ?leq_addr ?leqnn // => -[m' [-> _]]; exists m'.
Qed.

(* matmat of the Gram variant is the product with A itself, not with A^T A: A = [[2]] *)
Theorem C95_gram_matmat_refuted : (2%:R : F) != 0 -> let A : 'M[F]_1 := (2%:R)%:M in
  sparse_matvec A true [:: 1; 0] 0 1 = Some [:: 1; 4%:R] /\ native_matmat A [:: 1; 0] 0 1 1 = Some [:: 1; 2%:R] /\
  (4%:R : F) <> 2%:R.
Proof.
move=> two A; split; last split.
- have := C95_gram A [:: 1; 0] 0 1 false => /= -[m' [-> [sz w]]]; congr Some.
  case: m' sz w => [|a [|b []]] // _ w; have := w 0%N; have := w 1%N => /=.
  rewrite subnn /prod_at insubT //= big_ord_recl big_ord0 !mxE big_ord_recl big_ord0 !mxE /= !mulr1n => -> ->.
  by congr [:: _; _]; ring.
- have := C95_matmat A [:: 1; 0] 0 1 1 => /= -[m' [-> [sz w]]]; congr Some.
  case: m' sz w => [|a [|b []]] // _ w; have := w 0%N; have := w 1%N => /=.
  rewrite subnn /prod_at insubT //= big_ord_recl big_ord0 !mxE /= !mulr1n => -> ->.
  by congr [:: _; _]; ring.
by move=> e; move/eqP: two; apply; rewrite -[2%:R](addrK 2%:R) -natrD e subrr.
Qed.

(* ---- the affine operator ------------------------------------------------------------------ *)
Section Affine.
Variables (r c : nat) (A B : 'M[F]_(r, c)).

(* the parameter set last, 0 if none *)
Definition last_param (h : seq (acall F)) : F :=
  foldl (fun t a => if a is ASet t' then t' else t) 0 h.
Definition products (h : seq (acall F)) : nat := count (fun a => if a is AMatvec _ _ then true else false) h.

Lemma affine_state h o m o' m' : affine_run A B o m h = Some (o', m') ->
  [/\ af_param o' = foldl (fun t a => if a is ASet t' then t' else t) (af_param o) h,
      af_count o' = (af_count o + products h)%N & size m' = size m].
Proof.
elim: h o m => [|[t|i j] h IH] o m /=; first by case=> <- <-; rewrite addn0.
  by case/IH.
rewrite /affine_matvec; case Ew: (window _ _ _) => [x|] //=; case Es: (store _ _ _) => [m1|] //= /IH[-> -> ->] /=.
split=> //; first by rewrite addSnnS.
move: Es; rewrite /store; case: ifP => // hs [<-]; rewrite !size_cat size_drop size_takel ?addnA ?subnKC //.
by apply: leq_trans hs; rewrite leq_addr.
Qed.

(* after any calls, a matvec computes (A + tB) x for the parameter t set last, and is counted *)
Theorem C95_affine h m0 o m inp out : affine_run A B (affine_init F) m0 h = Some (o, m) ->
  if (inp + c <= size m)%N && (out + r <= size m)%N
  then exists m', affine_matvec A B o m inp out = Some (Affine (last_param h) (products h).+1, m') /\
    written m m' out r (fun i => prod_at A m inp i + last_param h * prod_at B m inp i)
  else affine_matvec A B o m inp out = None.
Proof.
case/affine_state => ep ec _; rewrite /affine_matvec ep ec /= add0n -/(last_param h); set t := last_param h.
have := product (A + t *: B) (m := m) (inp := inp) (out := out).
have := product_undef (A + t *: B) (m := m) (inp := inp) (out := out).
case: ifP => [/andP[h1 h2] _ /(_ h1 h2)|_ /(_ isT) + _]; last by case: (window _ _ _) => //= x ->.
case: (window _ _ _) => [x|] /= [m' [// E w]]; exists m'; rewrite E; split=> //; apply: written_ext w => i _.
rewrite /prod_at; case: insubP => [i' _ _|_]; last by rewrite mulr0 addr0.
by rewrite big_distrr -big_split /=; apply: eq_bigr => j _; rewrite !mxE mulrDl mulrA.
Qed.
End Affine.
End P.

(* ---- concrete cases ---------------------------------------------------------------------- *)
Section Ex.
Definition A23 : 'M[rat]_(2, 3) := \matrix_(i, j) (i * 3 + j + 1)%:R.     (* [[1,2,3],[4,5,6]] *)
Definition B23 : 'M[rat]_(2, 3) := \matrix_(i, j) (i == j :> nat)%:R.

Ltac entry := rewrite /prod_at insubT //= !(big_ord_recl, big_ord0, mxE).

(* A (1,1,1) = (6, 15); A^T (1,1) = (5,7,9), in one memory, output overlapping the input *)
Example C95_ex_matvec : dense_matvec A23 [:: 1; 1; 1; 7; 8] 0 2 = Some [:: 1; 1; 6; 15; 8] /\
  dense_rmatvec A23 [:: 1; 1; 1; 7; 8] 1 2 = Some [:: 1; 1; 5; 7; 9].
Proof.
split.
  have := C95_matvec A23 [:: 1; 1; 1; 7; 8] 0 2 false => /= -[m' [-> [sz w]]]; congr Some.
  apply: (@eq_from_nth _ 0); first by rewrite sz.
  by rewrite sz; case=> [|[|[|[|[|]]]]] // _; rewrite w //=; entry; apply/eqP.
have := C95_rmatvec A23 [:: 1; 1; 1; 7; 8] 1 2 false => /= -[m' [-> [sz w]]]; congr Some.
apply: (@eq_from_nth _ 0); first by rewrite sz.
by rewrite sz; case=> [|[|[|[|[|]]]]] // _; rewrite w //=; entry; apply/eqP.
Qed.

(* two columns at once; and the columns of the result are those of two matvecs *)
Example C95_ex_matmat (m := [:: 1; 1; 1; 1; 0; 0; 0; 0; 0; 0] : seq rat) :
  native_matmat A23 m 0 6 2 = Some [:: 1; 1; 1; 1; 0; 0; 6; 15; 1; 4] /\
  obind (fun w => dense_matvec A23 w 3 8) (dense_matvec A23 m 0 6) = Some [:: 1; 1; 1; 1; 0; 0; 6; 15; 1; 4].
Proof.
have h : native_matmat A23 m 0 6 2 = Some [:: 1; 1; 1; 1; 0; 0; 6; 15; 1; 4].
  have := C95_matmat A23 m 0 6 2 => /= -[m' [-> [sz w]]]; congr Some.
  apply: (@eq_from_nth _ 0); first by rewrite sz.
  by rewrite sz; case=> [|[|[|[|[|[|[|[|[|[|]]]]]]]]]] // _; rewrite w //=; entry; apply/eqP.
by split=> //; exact: (C95_matmat_columns (isT : (0 + 3 * 2 <= 6)%N || _) h).
Qed.

(* the Gram operator of a wide matrix, with the output shape() promises: out of bounds *)
Example C95_ex_gram : sparse_matvec A23 true [:: 1; 1; 1; 0; 0] 0 3 = None /\
  sparse_matvec A23 true [:: 1; 1; 1; 0; 0; 0] 0 3 = Some [:: 1; 1; 1; 66; 87; 108].
Proof.
split; first by apply: (proj1 (C95_gram_shape_refuted (A := A23) _ _)).
have := C95_gram A23 [:: 1; 1; 1; 0; 0; 0] 0 3 false => /= -[m' [-> [sz w]]]; congr Some.
apply: (@eq_from_nth _ 0); first by rewrite sz.
by rewrite sz; case=> [|[|[|[|[|[|]]]]]] // _; rewrite w //=; entry; apply/eqP.
Qed.

(* before any set_parameter the operator is A; then A + 3B *)
Example C95_ex_affine : affine_run A23 B23 (affine_init _) [:: 1; 1; 1; 0; 0] [:: AMatvec _ 0 3; ASet 2; ASet 3] =
    Some (Affine 3 1, [:: 1; 1; 1; 6; 15]) /\
  affine_matvec A23 B23 (Affine 3 1) [:: 1; 1; 1; 6; 15] 0 3 = Some (Affine 3 2, [:: 1; 1; 1; 9; 18]).
Proof.
have h : affine_run A23 B23 (affine_init _) [:: 1; 1; 1; 0; 0] [:: AMatvec _ 0 3; ASet 2; ASet 3] =
    Some (Affine 3 1, [:: 1; 1; 1; 6; 15]).
  have := @C95_affine _ _ _ A23 B23 [::] [:: 1; 1; 1; 0; 0] _ _ 0 3 erefl.
  case=> m' [E [sz w]]; transitivity (obind (fun p => affine_run A23 B23 p.1 p.2 [:: ASet 2; ASet 3])
    (affine_matvec A23 B23 (affine_init _) [:: 1; 1; 1; 0; 0] 0 3)) => //; rewrite E /=; congr (Some (_, _)); apply: (@eq_from_nth _ 0); first by rewrite sz.
  by rewrite sz; case=> [|[|[|[|[|]]]]] // _; rewrite w //=; entry; apply/eqP.
split=> //; have := @C95_affine _ _ _ A23 B23 _ _ _ _ 0 3 h.
case=> m' [-> [sz w]]; congr (Some (_, _)); apply: (@eq_from_nth _ 0); first by rewrite sz.
by rewrite sz; case=> [|[|[|[|[|]]]]] // _; rewrite w //=; entry; apply/eqP.
Qed.
End Ex.

Print Assumptions C95_matvec.
Print Assumptions C95_rmatvec.
Print Assumptions C95_adjoint.
Print Assumptions C95_matmat.
Print Assumptions C95_matmat_columns.
Print Assumptions C95_gram.
Print Assumptions C95_gram_shape_refuted.
Print Assumptions C95_gram_matmat_refuted.
Print Assumptions C95_affine.
