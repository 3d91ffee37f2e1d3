(* C83: Python operators as operands of the native kernel. *)
From mathcomp Require Import all_ssreflect all_algebra zify ring.
From mathcomp.real_closed Require Import complex.
From Verif Require Import Base ModelLanczos LemLanczos SpecLanczos PropLanczos ModelToeplitz LemToeplitz PropToeplitz
  ModelPylinop.
Set Implicit Arguments.
Unset Strict Implicit.
Unset Printing Implicit Defensive.
Import Order.TTheory GRing.Theory Num.Theory.
Local Open Scope ring_scope.

(* ---- spec --------------------------------------------------------------------------- *)
Section Spec.
Variable F : rcfType.
(* a well-formed array: every element lies in the block *)
Definition nd_ok (y : ndvec F) : Prop :=
  forall i, (i < v_len y)%N -> 0 <= (v_off y)%:Z + v_str y * i%:Z < (size (v_mem y))%:Z.
(* element i of the array as seen by Python *)
Definition nd_get (y : ndvec F) (i : nat) : F := (v_mem y)`_(absz ((v_off y)%:Z + v_str y * i%:Z)%R).
(* the array holds the n entries of the vector v *)
Definition nd_is (n : nat) (y : ndvec F) (v : 'cV[F]_n) : Prop :=
  [/\ nd_ok y, v_len y = n & forall i : 'I_n, nd_get y i = v i 0].
(* consecutive elements are neighbours in memory *)
Definition nd_dense (y : ndvec F) : bool := (v_str y == 1) || (v_len y <= 1)%N.
End Spec.

Section P.
Variable F : rcfType.
Variable eps : F.
Variable S : Type.
Local Notation pymatvec := (pymatvec F S).

Lemma copy_outP n (y : ndvec F) (v : 'cV[F]_n) : (0 < n)%N -> nd_is y v -> nd_dense y || ~~ v_same y ->
  copy_out n y = Some (cseq v).
Proof.
move=> n0 [ok len get]; rewrite /copy_out /as_array_t; case: (v_same y) => /=.
  rewrite orbF => dense.
  have str i : (i < n)%N -> absz ((v_off y)%:Z + v_str y * i%:Z) = (v_off y + i)%N.
    rewrite -len => hi; case/orP: dense => [/eqP ->|le1]; first by lia.
    have -> : i = 0%N by clear -hi le1; lia.
    by rewrite mulr0 !addr0 addn0.
  have bd : (v_off y + n <= size (v_mem y))%N.
    have hn : (n.-1 < n)%N by lia.
    have := ok n.-1; rewrite len => /(_ hn); have := str _ hn.
    clear -n0; move: (_ + _ * _) => z; lia.
  have le : (n <= size (drop (v_off y) (v_mem y)))%N by rewrite size_drop; clear -bd; lia.
  rewrite /rdv bd; congr Some; apply: (@eq_from_nth _ 0); first by rewrite size_cseq size_takel.
  rewrite size_takel // => i hi.
  by rewrite nth_take // nth_drop (nth_cseq _ (Ordinal hi)) -get /nd_get str.
move=> _; rewrite /rdv size_mkseq len add0n leqnn drop0 take_oversize; last by rewrite size_mkseq len.
congr Some; apply: (@eq_from_nth _ 0); first by rewrite size_mkseq size_cseq.
by rewrite size_mkseq len => i hi; rewrite nth_mkseq ?len // (nth_cseq _ (Ordinal hi)) -get.
Qed.

Lemma apply_vec n (A : 'M[F]_n) (x : seq F) : apply_mx A x = cseq (A *m cvec n x).
Proof. by apply: eq_map => i; rewrite mxE; apply: eq_bigr => j _; rewrite mxE. Qed.

(* a run with an operand that hands out A x, compared with the run on the matrix A *)
Definition agree (I : S -> Prop) (T : Type) (o : option (res T * S)) (d : option T) : Prop :=
  match d with
  | None => o = None
  | Some t => exists2 s', I s' & o = Some (Ok t, s')
  end.

Section Sim.
Variables (n : nat) (f : pymatvec) (A : 'M[F]_n) (I : S -> Prop).
Hypothesis fP : forall x s, size x = n -> I s -> exists2 s', I s' &
  py_matvec n f x s = Some (Ok (apply_mx A x), s').

Lemma kstep_sim tol deg orth ncv j p c nx st s : I s ->
  agree I (kstep_py eps n n f tol deg orth ncv j p c nx st s) (kstep eps A tol deg orth ncv j p c nx st).
Proof.
case: st => q al be V is_; rewrite /kstep_py /kstep.
case e: (rdv V (c * n) n) => [x|//]; rewrite [obind _ (Some x)]/= [obind _ (Some x)]/=.
have sx : size x = n.
  by move: e; rewrite /rdv; case: ifP => // h [<-]; rewrite size_takel // size_drop; clear -h; lia.
have [s' is' ->] := fP sx is_; rewrite [obind _ (Some _)]/=.
by set o := obind _ (wrv q 0 _); case: o => [z|] //=; exists s'.
Qed.

Lemma kloop_sim tol deg orth ncv r j p c nx st s : I s ->
  agree I (kloop_py eps n n f tol deg orth ncv r j p c nx st s) (kloop eps A tol deg orth ncv r j p c nx st).
Proof.
elim: r j p c nx st s => [|r IH] j p c nx st s is_ /=; first by exists s.
have := @kstep_sim tol deg orth ncv j p c nx st s is_.
case: (kstep _ _ _ _ _ _ _ _ _ _ _) => [[st' [|]]|] /=; last by move=> ->.
  by case=> s' is' ->; exists s'.
by case=> s' is' -> /=; apply: IH.
Qed.

Lemma lanczos_sim q deg rtol orth al be V ncv s : I s ->
  agree I (lanczos_py eps n n f q deg rtol orth al be V ncv s) (lanczos_recurrence eps A q deg rtol orth al be V ncv).
Proof.
move=> is_; rewrite /lanczos_py /lanczos_recurrence.
case: (wcol n V _ _) => [V1|] //=; case: (rdv q 0 n) => [x|] //=.
case: (wcol n V1 _ _) => [V2|] //=; case: (wr be 0 0) => [be'|] //=.
exact: kloop_sim.
Qed.
End Sim.

Lemma wcol_ok n ncv (W : seq F) c (xs : seq F) : size W = (n * ncv)%N -> size xs = n -> (c < ncv)%N ->
  exists2 W', wcol n W c xs = Some W' & size W' = (n * ncv)%N.
Proof.
move=> sW sx hc; rewrite /wcol sx eqxx /wrv sx sW.
have h : (c * n + n <= n * ncv)%N by rewrite addnC -mulSn mulnC leq_mul2l hc orbT.
rewrite h; eexists; first by reflexivity.
by rewrite !size_cat size_takel ?sW ?size_drop ?sW ?sx; clear -h; lia.
Qed.

(* the first product decides *)
Lemma lanczos_first n (f : pymatvec) q deg rtol orth al be V ncv s :
  size q = n -> 0 < deg -> (0 < ncv)%N -> (0 < size be)%N -> size V = (n * ncv)%N ->
  exists2 x, size x = n &
    let r := lanczos_py eps n n f q deg rtol orth al be V ncv s in
    (py_matvec n f x s = None -> r = None) /\
    (forall e s', py_matvec n f x s = Some (Err e, s') -> r = Some (Err e, s')).
Proof.
move=> sq d0 nc0 sb sV; rewrite /lanczos_py.
have h1 : (ncv - 1 < ncv)%N by clear -nc0; lia.
have [V1 -> sV1] := wcol_ok sV (size_nseq n 0) h1.
have sx : size (enormalized q) = n by rewrite /enormalized; case: ifP; rewrite ?size_map.
have [V2 e2 sV2] := wcol_ok sV1 sx nc0.
have eq0 : rdv q 0 n = Some q by rewrite /rdv sq add0n leqnn drop0 take_oversize ?sq.
exists (take n V2); first by rewrite size_takel // sV2 leq_pmulr.
rewrite /= eq0 /= e2 /= /wr sb /= d0; have -> : `|deg|%N = (`|deg|.-1).+1 by clear -d0; lia.
rewrite /= mul0n /rdv sV2 add0n leq_pmulr // drop0 /=.
by split=> [-> //|e s' -> //].
Qed.

(* ---- C83 ------------------------------------------------------------------------------- *)
(* If every call of the object's matvec returns an array holding A x that is contiguous or has another dtype, then the
   kernel does exactly what it does for the matrix A.  I is any invariant of the object's state. *)
Theorem C83_contiguous n (f : pymatvec) (A : 'M[F]_n) (I : S -> Prop) q deg rtol orth al be V ncv s :
  (0 < n)%N -> I s ->
  (forall x s, size x = n -> I s -> exists y s', [/\ f x s = (Ok y, s'), I s', nd_is y (A *m \col_i x`_i) &
                                                     nd_dense y || ~~ v_same y]) ->
  match lanczos_recurrence eps A q deg rtol orth al be V ncv with
  | Some st => exists2 s', I s' & lanczos_py eps n n f q deg rtol orth al be V ncv s = Some (Ok st, s')
  | None => lanczos_py eps n n f q deg rtol orth al be V ncv s = None
  end.
Proof.
move=> n0 is_ H; apply: (@lanczos_sim n f A I) => // x s0 sx is0.
have [y [s' [ef is' ny dy]]] := H x s0 sx is0; exists s' => //.
by rewrite /py_matvec ef (copy_outP n0 ny dy) apply_vec.
Qed.

(* An exception raised by matvec comes out of the kernel. *)
Theorem C83_exception n (f : pymatvec) q deg rtol orth al be V ncv s e s' :
  size q = n -> 0 < deg -> (0 < ncv)%N -> (0 < size be)%N -> size V = (n * ncv)%N ->
  (forall x, size x = n -> f x s = (Err e, s')) ->
  lanczos_py eps n n f q deg rtol orth al be V ncv s = Some (Err e, s').
Proof.
move=> sq d0 nc0 sb sV H.
have [x sx [_ Hx]] := lanczos_first f rtol orth al s sq d0 nc0 sb sV.
by apply: Hx; rewrite /py_matvec H.
Qed.

(* ---- the property fails: views ---------------------------------------------------------- *)
(* `lambda x: x[::-1]` *)
Definition flip_view : pymatvec := fun x s => (Ok (NdVec x (size x).-1 (size x) (-1) true), s).

(* It is a correct implementation of the (symmetric) exchange matrix, but the kernel reads beyond the end of the
   array, for every start vector and all parameters. *)
Theorem C83_flip_refuted n q deg rtol orth al be V ncv s :
  let J : 'M[F]_n := \matrix_(i, j) (i == rev_ord j)%:R in
  (1 < n)%N -> size q = n -> 0 < deg -> (0 < ncv)%N -> (0 < size be)%N -> size V = (n * ncv)%N ->
  [/\ J^T = J,
      forall x s, size x = n -> exists2 y, flip_view x s = (Ok y, s) & nd_is y (J *m \col_i x`_i) &
      lanczos_py eps n n flip_view q deg rtol orth al be V ncv s = None].
Proof.
move=> J n1 sq d0 nc0 sb sV; split.
- by apply/matrixP => i j; rewrite !mxE -(inj_eq rev_ord_inj) rev_ordK eq_sym.
- move=> x s0 sx; eexists; first by reflexivity.
  split=> //=; first by move=> i /=; rewrite sx; lia.
  move=> i; rewrite mxE (bigD1 (rev_ord i)) //= big1 => [|j ne].
    rewrite !mxE rev_ordK eqxx mul1r addr0 /nd_get /= sx; congr (x`_ _); have := ltn_ord i; lia.
  by rewrite !mxE -(inj_eq rev_ord_inj) rev_ordK eq_sym (negbTE ne) mul0r.
have [x sx [Hx _]] := lanczos_first flip_view rtol orth al s sq d0 nc0 sb sV.
apply: Hx; rewrite /py_matvec /flip_view /copy_out /as_array_t /= /rdv sx.
by rewrite (_ : (n.-1 + n <= n)%N = false) //; apply/negbTE; clear -n1; lia.
Qed.

(* `lambda x: np.column_stack((A @ x, 0 * x))[:, 0]`: column 0 of an n x 2 array in C order *)
Definition column_view n (A : 'M[F]_n) : pymatvec := fun x s =>
  (Ok (NdVec (flatten [seq [:: a; 0] | a <- [seq (A *m \col_i x`_i) i 0 | i <- enum 'I_n]]) 0 n 2 true), s).

Lemma nth_inter (v : seq F) i : (flatten [seq [:: a; 0] | a <- v])`_i = if odd i then 0 else v`_i./2.
Proof.
elim: v i => [|a v IH] [|[|i]] //=; first by case: ifP.
by rewrite negbK IH.
Qed.

Lemma size_inter (v : seq F) : size (flatten [seq [:: a; 0] | a <- v]) = (size v).*2.
Proof. by elim: v => //= a v ->. Qed.

Definition spread n : 'M[F]_n := \matrix_(i, k) (i == k.*2 :> nat)%:R.

(* again a correct implementation of A; nothing is read out of bounds and no exception is raised, but the kernel
   works on another matrix: row k of A in row 2 k, zeros between *)
Theorem C83_column_refuted n (A : 'M[F]_n) q deg rtol orth al be V ncv s : (0 < n)%N ->
  [/\ forall x s, exists2 y, column_view A x s = (Ok y, s) & nd_is y (A *m \col_i x`_i) &
      lanczos_py eps n n (column_view A) q deg rtol orth al be V ncv s =
      omap (fun st => (Ok st, s)) (lanczos_recurrence eps (spread n *m A) q deg rtol orth al be V ncv)].
Proof.
move=> n0; split.
  move=> x s0; eexists; first by reflexivity.
  split=> //=.
    by move=> i /=; rewrite size_inter size_map size_enum_ord; lia.
  move=> i; rewrite /nd_get (_ : absz _ = i.*2); last by rewrite /=; lia.
  by rewrite /= nth_inter odd_double doubleK (nth_map i) ?size_enum_ord // nth_ord_enum.
have H x s0 : size x = n -> s0 = s -> exists2 s', s' = s &
    py_matvec n (column_view A) x s0 = Some (Ok (apply_mx (spread n *m A) x), s'); last first.
  have := @lanczos_sim n (column_view A) (spread n *m A) (fun s' => s' = s) H q deg rtol orth al be V ncv s erefl.
  by case: (lanczos_recurrence _ _ _ _ _ _ _ _ _ _) => [st|] //= [s' ->].
move=> sx ->; exists s => //.
rewrite /py_matvec /= /copy_out /as_array_t /= /rdv size_inter size_map size_enum_ord drop0.
rewrite (_ : (0 + n <= n.*2)%N); last by clear; lia.
congr (Some (Ok _, s)).
set l := flatten _.
have sl : (n <= size l)%N by rewrite size_inter size_map size_enum_ord; clear; lia.
apply: (@eq_from_nth _ 0); rewrite size_takel //; first by rewrite size_map size_enum_ord.
move=> i hi; rewrite nth_take // /l nth_inter apply_vec (nth_cseq _ (Ordinal hi)) -mulmxA mxE /=.
case: ifP => oi.
  rewrite big1 // => k _; rewrite mxE /=; case: eqP => [e|_]; last by rewrite mul0r.
  by move: oi; rewrite e odd_double.
have hk : (i./2 < n)%N by clear -hi; lia.
rewrite (bigD1 (Ordinal hk)) //= big1 => [|k ne].
  rewrite mxE /= (_ : (i == i./2.*2) = true) ?mul1r ?addr0; last by apply/eqP; move: (odd_double_half i); rewrite oi; lia.
  rewrite (nth_map (Ordinal hk)) ?size_enum_ord //; congr ((_ *m _) _ _); apply: val_inj => /=.
  by rewrite nth_enum_ord.
rewrite mxE /=; case: eqP => [e|_]; last by rewrite mul0r.
by case/eqP: ne; apply: val_inj; rewrite /= e doubleK.
Qed.

(* so for the identity and the start vector e_1 the first entry of T is 0 instead of 1 *)
Theorem C83_column_identity n deg rtol orth (al be V : seq F) ncv s : (1 < n)%N -> (0 < deg)%N -> orth <= 0 ->
  size V = (n * ncv)%N -> (deg <= size al)%N -> (deg < size be)%N -> (2 <= ncv)%N ->
  let q : seq F := mkseq (fun i => (i == 1%N)%:R) n in
  (exists2 st, lanczos_py eps n n (column_view (1%:M : 'M[F]_n)) q deg%:Z rtol orth al be V ncv s = Some (Ok st, s) & (k_alpha st)`_0 = 0) /\
  (exists2 st, lanczos_recurrence eps (1%:M : 'M[F]_n) q deg%:Z rtol orth al be V ncv = Some st & (k_alpha st)`_0 = 1).
Proof.
move=> n1 d0 o0 sV sa sb nc2 q.
have n0 : (0 < n)%N by clear -n1; lia.
have sq : size q = n by rewrite size_mkseq.
pose e1 : 'cV[F]_n := delta_mx (Ordinal n1) 0.
have qE : \col_(i < n) q`_i = e1.
  by apply/colP => i; rewrite !mxE nth_mkseq // andbT.
have in1 (B : 'M[F]_n) : inner e1 (B *m e1) = B (Ordinal n1) (Ordinal n1).
  rewrite /inner (bigD1 (Ordinal n1)) //= big1 => [|i ne]; last by rewrite mxE (negbTE ne) mul0r.
  by rewrite {1}/e1 mxE !eqxx mul1r addr0 /e1 -colE mxE.
have u1 : vnorm e1 = 1 by rewrite /vnorm -[X in inner _ X]mul1mx in1 mxE eqxx sqrtr1.
have first B : exists2 st, lanczos_recurrence eps (B : 'M[F]_n) q deg%:Z rtol orth al be V ncv = Some st &
    (k_alpha st)`_0 = B (Ordinal n1) (Ordinal n1).
  have [k [hk _]] := C46_steps_exist_uniquely B ((vnorm e1)^-1 *: e1) (Num.sqrt n%:R * rtol) d0.
  rewrite -qE in hk; have [st [est ea _ _ _]] := C46_window_is_enough eps sq sV sa sb nc2 o0 hk.
  exists st => //; rewrite ea; case: hk => /andP[-> _] _ _.
  by rewrite qE u1 invr1 scale1r /la /= scale0r subr0 in1.
split; last by have [st e1' e2] := first 1%:M; exists st; rewrite // e2 mxE eqxx.
have [_ ->] := C83_column_refuted 1%:M q deg%:Z rtol orth al be V ncv s n0.
by have [st -> e2] := first (spread n *m 1%:M); exists st; rewrite // e2 mulmx1 mxE.
Qed.

(* ---- results of the wrong length ---------------------------------------------------------- *)
(* A plain object whose matvec returns a fresh array of k < n elements: the kernel reads beyond it.  Behind scipy's
   LinearOperator the same function makes the call raise ValueError. *)
Theorem C83_short_result n k (g : seq F -> seq F) q deg rtol orth al be V ncv s :
  (k < n)%N -> (forall x, size (g x) = k) ->
  size q = n -> 0 < deg -> (0 < ncv)%N -> (0 < size be)%N -> size V = (n * ncv)%N ->
  let f : pymatvec := fun x s => (Ok (NdVec (g x) 0 k 1 true), s) in
  lanczos_py eps n n f q deg rtol orth al be V ncv s = None /\
  lanczos_py eps n n (scipy_matvec n n f) q deg rtol orth al be V ncv s = Some (Err ValueError, s).
Proof.
move=> kn sg sq d0 nc0 sb sV f; split.
  have [x sx [Hx _]] := lanczos_first f rtol orth al s sq d0 nc0 sb sV.
  by apply: Hx; rewrite /py_matvec /f /copy_out /as_array_t /= /rdv sg add0n leqNgt kn.
have [x sx [_ Hx]] := lanczos_first (scipy_matvec n n f) rtol orth al s sq d0 nc0 sb sV.
by apply: Hx; rewrite /py_matvec /scipy_matvec sx eqxx /= ltn_eqF.
Qed.

(* scipy's wrapper changes nothing for well-behaved operators, views included *)
Theorem C83_scipy_transparent n (f : pymatvec) (A : 'M[F]_n) (I : S -> Prop) :
  (forall x s, size x = n -> I s -> exists y s', [/\ f x s = (Ok y, s'), I s' & nd_is y (A *m \col_i x`_i)]) ->
  forall x s, size x = n -> I s -> scipy_matvec n n f x s = f x s.
Proof.
move=> H x s sx is_; rewrite /scipy_matvec sx eqxx /=; have [y [s' [-> _ [_ -> _]]]] := H x s sx is_.
by rewrite eqxx.
Qed.
End P.

(* ---- Toeplitz objects -------------------------------------------------------------------- *)
(* The copy made by Toeplitz._matvec (operators.py 178: "We return a copy because the output cannot be a view") is
   what the kernel needs: lanczos on a Toeplitz object is lanczos on the dense symmetric Toeplitz matrix, whatever the
   object was used for before. *)
Theorem C83_toeplitz (F : rcfType) (eps : F) (root : nat -> complex F) (c : seq F) q deg rtol orth al be V ncv :
  (forall N, (0 < N)%N -> N.-primitive_root (root N)) -> (0 < size c)%N ->
  let n := size c in
  let A : 'M[F]_n := \matrix_(i, j) if (j <= i)%N then c`_(i - j) else c`_(j - i) in
  exists2 T, t_init root c None id = Ok T &
  forall h, match lanczos_recurrence eps A q deg rtol orth al be V ncv with
  | Some st => exists h', lanczos_py eps n n (toeplitz_matvec root) q deg rtol orth al be V ncv (t_run root T h) =
                          Some (Ok st, t_run root T h')
  | None => lanczos_py eps n n (toeplitz_matvec root) q deg rtol orth al be V ncv (t_run root T h) = None
  end.
Proof.
move=> rootP n0 n A.
have [T eT HT] := C66_symmetric rootP id n0; exists T => // h.
have eA : toep n c c = A by [].
have := @C83_contiguous F eps (tobj F) n (toeplitz_matvec root) A (fun T' => exists h', T' = t_run root T h')
  q deg rtol orth al be V ncv (t_run root T h) n0 (ex_intro _ h erefl).
have H x s : size x = n -> (exists h', s = t_run root T h') -> exists y s', [/\ toeplitz_matvec root x s = (Ok y, s'),
    exists h', s' = t_run root T h', nd_is y (A *m \col_i x`_i) & nd_dense y || ~~ v_same y].
  move=> sx [h' ->]; have := HT h' x sx; rewrite /toeplitz_matvec !map_id.
  case e: (t_matvec root (t_run root T h') x) => [T' r] /= ->.
  do 2 eexists; split; first by reflexivity.
  - exists (rcons h' (TMatvec x)); rewrite /t_run -cats1 foldl_cat /= -/(t_run root T h').
    by rewrite e.
  - rewrite -eA; split=> /=.
    + by move=> i /=; rewrite size_vals; lia.
    + by rewrite size_vals.
    move=> i; rewrite /nd_get (_ : absz _ = i) /=; last by rewrite /=; lia.
    by rewrite (nth_vals _ (ltn_ord i)); congr ((_ *m _) _ _); apply: val_inj.
  - by rewrite /nd_dense eqxx.
by move/(_ H); case: (lanczos_recurrence _ _ _ _ _ _ _ _ _ _) => // st [_ [h' ->] ->]; exists h'.
Qed.

(* ---- examples ------------------------------------------------------------------------------ *)
Section Ex.
Variable F : rcfType.
(* a contiguous result satisfies the hypotheses of C83_contiguous *)
Example C83_ex (A : 'M[F]_2) (x : seq F) (s : unit) : size x = 2%N ->
  exists y s', [/\ (fun (x : seq F) (s : unit) => (Ok (NdVec [seq (A *m \col_i x`_i) i 0 | i <- enum 'I_2] 0 2 1 true), s)) x s = (Ok y, s'),
    True, nd_is y (A *m \col_i x`_i) & nd_dense y || ~~ v_same y].
Proof.
move=> sx; do 2 eexists; split; first by reflexivity.
- by [].
- split=> //=; first by move=> i /=; rewrite size_map size_enum_ord; lia.
  move=> i; rewrite /nd_get (_ : absz _ = i) /=; last by rewrite /=; lia.
  by rewrite (nth_map i) ?size_enum_ord // nth_ord_enum.
by rewrite /nd_dense eqxx.
Qed.
End Ex.

Print Assumptions C83_contiguous.
Print Assumptions C83_exception.
Print Assumptions C83_flip_refuted.
Print Assumptions C83_column_refuted.
Print Assumptions C83_column_identity.
Print Assumptions C83_short_result.
Print Assumptions C83_scipy_transparent.
Print Assumptions C83_toeplitz.
