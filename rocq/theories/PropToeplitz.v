(* C66, C67: Toeplitz and normalize_unit. *)
From mathcomp Require Import all_ssreflect all_algebra zify ring.
From mathcomp.real_closed Require Import complex.
From Verif Require Import Base ModelToeplitz LemToeplitz.
Set Implicit Arguments.
Unset Strict Implicit.
Unset Printing Implicit Defensive.
Import Order.TTheory GRing.Theory Num.Theory.
Local Open Scope ring_scope.

(* ---- spec --------------------------------------------------------------------------- *)
Section Spec.
Variable F : rcfType.
(* the n x n Toeplitz matrix with first column c and first row r (r`_0 is not used) *)
Definition toep (n : nat) (c r : seq F) : 'M[F]_n := \matrix_(i, j) if (j <= i)%N then c`_(i - j) else r`_(j - i).
(* lists and column vectors *)
Definition colv (n : nat) (x : seq F) : 'cV[F]_n := \col_i x`_i.
Definition vals (n : nat) (v : 'cV[F]_n) : seq F := [seq v i 0 | i <- enum 'I_n].
End Spec.

Section P.
Variable F : rcfType.
Local Notation C := (complex F).
Variable root : nat -> C.
Hypothesis rootP : forall N, (0 < N)%N -> N.-primitive_root (root N).
Local Notation rc := (real_complex F).
Local Notation t_init := (t_init root).
Local Notation t_run := (t_run root).
Local Notation t_matvec := (t_matvec root).

Definition ddata (c r : seq F) : seq F := c ++ [:: 0] ++ rev (behead r).
Lemma size_ddata c r : size (ddata c r) = (size c + (size r).-1.+1)%N.
Proof. by rewrite /ddata !size_cat /= size_rev size_behead. Qed.

Lemma ddataE c r (i j : nat) : (size r).-1 = (size c).-1 -> (i < size c)%N -> (j < size c)%N ->
  (ddata c r)`_((i + (size c).*2 - j) %% (size c).*2) = if (j <= i)%N then c`_(i - j) else r`_(j - i).
Proof.
move=> sr hi hj; rewrite /ddata; case: leqP => h.
  have -> : ((i + (size c).*2 - j) %% (size c).*2 = i - j)%N.
    by rewrite addnC -addnBA // modnDl modn_small //; lia.
  by rewrite nth_cat (_ : (i - j < size c)%N) //; lia.
have -> : ((i + (size c).*2 - j) %% (size c).*2 = (size c).*2 - (j - i))%N.
  by rewrite modn_small; lia.
rewrite nth_cat (_ : ((size c).*2 - (j - i) < size c)%N = false); last by apply/negbTE; lia.
rewrite (_ : ((size c).*2 - (j - i) - size c = (size c - (j - i)).-1.+1)%N); last by lia.
rewrite /= nth_rev size_behead ?sr; last by lia.
by rewrite nth_behead; congr (r`_ _); lia.
Qed.

Lemma delta_sum N (d : seq F) (m j : nat) : (0 < N)%N -> (m < N)%N ->
  \sum_(l < N) d`_l * ((l + m)%N == j %[mod N])%:R = d`_((j + N - m) %% N).
Proof.
move=> N0 hm; pose l0 : 'I_N := Ordinal (ltn_pmod (j + N - m) N0).
have eq0 : ((l0 + m)%N == j %[mod N]).
  by rewrite /= modnDml subnK ?modnDr //; lia.
rewrite (bigD1 l0) //= eq0 mulr1 big1 ?addr0 // => l ne.
case: eqP => [h|_]; last by rewrite mulr0.
case/negP: ne; apply/eqP/val_inj; have hl := ltn_ord l; have hl0 := ltn_ord l0.
have : (l + m == l0 + m %[mod N])%N by rewrite (eqP eq0) h.
by rewrite eqn_modDr !modn_small // => /eqP.
Qed.

Lemma delta_sum2 N (d : seq F) (m j : nat) : (0 < N)%N -> (j < N)%N ->
  \sum_(l < N) d`_l * (m == (l + j)%N %[mod N])%:R = d`_((m + N - j) %% N).
Proof. by move=> N0 hj; rewrite -(delta_sum d m N0 hj); apply: eq_bigr => l _; rewrite eq_sym. Qed.

(* the fields of an object that calls can change are only the first half of _z *)
Definition t_inv (c r : seq F) (cast : F -> F) (T : tobj F) : Prop :=
  exists z, size z = size c /\
  T = TObj c r [seq complex.Re (\sum_(l < size (ddata c r)) rc (ddata c r)`_l * root (size (ddata c r)) ^+ (l * k))
               | k <- iota 0 (size (ddata c r))] (z ++ nseq (size c) 0) (size c) cast.

Lemma t_initP c r cast : exists2 T, t_init c r cast = Ok T & t_inv c (odflt c r) cast T.
Proof.
rewrite /t_init /=; have -> : (if r is Some r0 then r0 else c) = odflt c r by case: r.
move: (odflt c r) => {}r; rewrite -/(ddata c r) /fft size_map.
case: eqP => [/eqP|_]; first by rewrite size_ddata; lia.
rewrite /=; eexists; first by reflexivity.
exists (nseq (size c) 0); split; first by rewrite size_nseq.
congr TObj.
  rewrite /realpart /mkseq -map_comp; apply: eq_map => k /=; congr complex.Re; apply: eq_bigr => l _.
  by rewrite (nth_map 0).
by rewrite -nseqD; congr nseq; lia.
Qed.

Lemma t_stepP c r cast T k : t_inv c r cast T -> t_inv c r cast (t_call root T k).
Proof.
have main x : t_inv c r cast T -> t_inv c r cast (t__matvec root T x).1.
  case=> z [sz ->]; rewrite /t__matvec /=; case: eqP => [sx|_] /=; last by exists z.
  exists [seq cast y | y <- x]; rewrite size_map; split=> //; congr TObj.
  by rewrite drop_size_cat.
case: k => x iT /=; last exact: main.
by rewrite /t_matvec; case: ifP => // _; apply: main.
Qed.

Lemma t_runP c r cast h T : t_inv c r cast T -> t_inv c r cast (t_run T h).
Proof. by elim: h T => [//|k h IH] T iT /=; apply/IH/t_stepP. Qed.

Lemma half_sum n (f : nat -> F) : (forall m, (n <= m)%N -> f m = 0) -> \sum_(m < n.*2) f m = \sum_(m < n) f m.
Proof.
move=> h; rewrite -addnn big_split_ord /= [X in _ + X]big1 ?addr0 // => m _.
by rewrite h // leq_addr.
Qed.

Lemma matvec_inv c r cast T x : (0 < size c)%N -> (size r).-1 = (size c).-1 -> t_inv c r cast T -> size x = size c ->
  let A := toep (size c) c r in
  (t_matvec T x).2 =
  Ok [seq cast y | y <- vals (2%:R^-1 *: (A + A^T) *m colv (size c) [seq cast y | y <- x])].
Proof.
move=> n0 sr [z0 [sz0 ->]] sx A; rewrite /t_matvec /= sx eqxx /= /t__matvec /= sx eqxx /=.
rewrite drop_size_cat //; set n := size c in n0 sr sz0 sx A *.
have sd : size (ddata c r) = n.*2 by rewrite size_ddata sr -/n; lia.
rewrite sd; set d := ddata c r in sd *; set z := _ ++ nseq n 0.
have sz : size z = n.*2 by rewrite size_cat size_map size_nseq sx addnn.
have N0 : (0 < n.*2)%N by lia.
have nn : (n < n.*2)%N by lia.
set w := root n.*2; have wP : n.*2.-primitive_root w := rootP N0.
have N0b : (n.*2 == 0)%N = false by rewrite -[LHS]negbK -lt0n N0.
rewrite /fft size_map sz N0b /=.
set df := tocomplex _; set xf := mkseq _ _.
have sdf : size df = n.*2 by rewrite size_map size_map size_iota.
have sxf : size xf = n.*2 by rewrite size_mkseq.
have dfE k : (k < n.*2)%N -> df`_k = rc (complex.Re (\sum_(l < n.*2) rc d`_l * w ^+ (l * k))).
  by move=> hk; rewrite (nth_map 0) ?size_map ?size_iota // (nth_map 0%N) ?size_iota // nth_iota.
have xfE k : (k < n.*2)%N -> xf`_k = \sum_(m < n.*2) rc z`_m * w ^+ (m * k).
  move=> hk; rewrite nth_mkseq //; apply: eq_bigr => m _.
  by rewrite (nth_map 0) ?sz.
rewrite /mul_bcast sdf sxf eqxx /=.
set p := [seq _ | _ <- _].
have sp : size p = n.*2 by rewrite size_map size_zip sdf sxf minnn.
have pE k : (k < n.*2)%N -> p`_k = df`_k * xf`_k.
  by move=> hk; rewrite (nth_map (0, 0)) ?size_zip ?sdf ?sxf ?minnn // nth_zip // sdf.
rewrite /ifft sp N0b /=; congr Ok; congr map.
have nz j : (j < n)%N -> z`_j = cast x`_j.
  by move=> hj; rewrite nth_cat size_map sx hj (nth_map 0) ?sx.
have nz0 j : (n <= j)%N -> z`_j = 0.
  by move=> hj; rewrite nth_cat size_map sx ltnNge hj /= nth_nseq if_same.
apply: (@eq_from_nth _ 0); first by rewrite size_take size_map size_mkseq /vals size_map size_enum_ord nn.
move=> j; rewrite size_take size_map size_mkseq nn => hj; have hj2 := ltn_trans hj nn.
rewrite nth_take // (nth_map 0) ?size_mkseq // nth_mkseq //.
have -> : \sum_(k < n.*2) p`_k * w^-1 ^+ (j * k) =
  \sum_(k < n.*2) rc (complex.Re (\sum_(l < n.*2) rc d`_l * w ^+ (l * k))) *
              (\sum_(m < n.*2) rc z`_m * w ^+ (m * k)) * w^-1 ^+ (j * k).
  by apply: eq_bigr => k _; rewrite pE // dfE // xfE.
rewrite (conv_entry N0 wP d z j) /=.
rewrite /vals (nth_map (Ordinal hj)) ?size_enum_ord // mxE.
rewrite (@half_sum n (fun m => z`_m * (2%:R^-1 * \sum_(l < n.*2) d`_l *
  (((l + m)%N == j %[mod n.*2])%:R + (m == (l + j)%N %[mod n.*2])%:R)))); last by move=> m hm; rewrite nz0 ?mul0r.
apply: eq_bigr => m _; rewrite nz // mulrC; congr (_ * _); last by rewrite mxE (nth_map 0) ?sx.
rewrite !mxE; congr (_ * _).
rewrite (eq_bigr (fun l : 'I_n.*2 => d`_l * ((l + m)%N == j %[mod n.*2])%:R + d`_l * ((m : nat) == (l + j)%N %[mod n.*2])%:R));
  last by move=> l _; rewrite mulrDr.
rewrite big_split /= delta_sum ?delta_sum2 //; [|by have := ltn_ord m; lia..].
by rewrite !ddataE // nth_enum_ord.
Qed.

Lemma half_twice n (A : 'M[F]_n) : 2%:R^-1 *: (A + A) = A.
Proof. by rewrite -{1}[A]scale1r -{2}[A]scale1r -scalerDl scalerA mulVf ?scale1r ?pnatr_eq0. Qed.

(* ---- C66 ------------------------------------------------------------------------------ *)
(* one column: the product with the symmetric Toeplitz matrix, whatever was computed
   with the object before *)
Theorem C66_symmetric c cast : (0 < size c)%N ->
  exists2 T, t_init c None cast = Ok T &
  forall h x, size x = size c ->
    (t_matvec (t_run T h) x).2 = Ok [seq cast y | y <- vals (toep (size c) c c *m colv (size c) [seq cast y | y <- x])].
Proof.
move=> n0; have [T eT iT] := t_initP c None cast; exists T => // h x sx.
rewrite (matvec_inv n0 _ (t_runP h iT)) //=; do 3 congr (_ _); congr (_ *m _).
have -> : (toep (size c) c c)^T = toep (size c) c c.
  apply/matrixP => i j; rewrite !mxE; have [lij|lij|e] := ltngtP i j => //; by rewrite e.
exact: half_twice.
Qed.

(* column and row: the product with the symmetric part (A + A^T) / 2 *)
Theorem C66_symmetric_part c r cast : (0 < size c)%N -> size r = size c ->
  let A := toep (size c) c r in
  exists2 T, t_init c (Some r) cast = Ok T &
  forall h x, size x = size c ->
    (t_matvec (t_run T h) x).2 =
    Ok [seq cast y | y <- vals (2%:R^-1 *: (A + A^T) *m colv (size c) [seq cast y | y <- x])].
Proof.
move=> n0 sr A; have [T eT iT] := t_initP c (Some r) cast; exists T => // h x sx.
by rewrite (matvec_inv n0 _ (t_runP h iT)) //= sr.
Qed.

Lemma valsK n (v : 'cV[F]_n) : colv n (vals v) = v.
Proof.
apply/matrixP => i j; rewrite mxE /vals (nth_map i) ?size_enum_ord // nth_ord_enum.
by rewrite (ord1 j).
Qed.
Lemma colvK n (x : seq F) : size x = n -> vals (colv n x) = x.
Proof.
move=> sx; apply: (@eq_from_nth _ 0); first by rewrite size_map size_enum_ord.
by move=> i; rewrite size_map size_enum_ord => hi; rewrite (nth_map (Ordinal hi)) ?size_enum_ord // mxE nth_enum_ord.
Qed.
Lemma vals_inj n : injective (@vals F n).
Proof. by move=> u v e; rewrite -[u]valsK e valsK. Qed.
Lemma size_vals n (v : 'cV[F]_n) : size (vals v) = n.
Proof. by rewrite size_map size_enum_ord. Qed.

Lemma nth_vals n (v : 'cV[F]_n) i (hi : (i < n)%N) : (vals v)`_i = v (Ordinal hi) 0.
Proof. by rewrite (nth_map (Ordinal hi)) ?size_enum_ord //; congr (v _ _); apply: val_inj; rewrite /= nth_enum_ord. Qed.

(* so the product with the Toeplitz matrix of c and r is returned for every x only
   if r repeats c *)
Theorem C66_row_refuted c r : (0 < size c)%N -> size r = size c ->
  exists2 T, t_init c (Some r) id = Ok T &
  forall h, (forall x, size x = size c -> (t_matvec (t_run T h) x).2 = Ok (vals (toep (size c) c r *m colv (size c) x)))
    <-> (forall j, (0 < j < size c)%N -> r`_j = c`_j).
Proof.
move=> n0 sr; have [T eT H] := C66_symmetric_part id n0 sr; exists T => // h; split => [E|E x sx].
  case=> // j /andP[_ hj]; set n := size c in n0 sr H E hj *.
  pose i0 : 'I_n := Ordinal n0; pose i1 : 'I_n := Ordinal hj.
  pose x := vals (delta_mx i1 0 : 'cV[F]_n).
  have sx : size x = n by apply: size_vals.
  have := E x sx; rewrite H // !map_id valsK => -[/vals_inj/matrixP /(_ i0 0)].
  rewrite -!colE !mxE /= subn0 => e.
  move: e; move: (c`_ _) (r`_ _) => a b e.
  have : 2%:R^-1 * (b + a) = 2%:R^-1 * (b + b) by rewrite e -mulr2n -[b *+ 2]mulr_natl mulrA mulVf ?mul1r ?pnatr_eq0.
  by move/(mulfI (_ : 2%:R^-1 != 0)); rewrite invr_eq0 pnatr_eq0 => /(_ isT) /addrI.
rewrite H // !map_id; congr (Ok (vals (_ *m _))).
suff -> : (toep (size c) c r)^T = toep (size c) c r.
  exact: half_twice.
apply/matrixP => i j; rewrite !mxE; have hi := ltn_ord i; have hj := ltn_ord j.
by have [lij|lij|-> //] := ltngtP i j; rewrite E //; clear -lij hi hj; lia.
Qed.

(* everything else is an exception *)
Theorem C66_errors c r cast : exists2 T, t_init c r cast = Ok T &
  forall h x,
    [/\ size x != size c -> (t_matvec (t_run T h) x).2 = Err ValueError,
        size x != size c -> (t__matvec root (t_run T h) x).2 = Err AssertionError,
        size c = 0%N -> (t_matvec (t_run T h) x).2 = Err ValueError &
        (size (odflt c r)).-1 <> (size c).-1 -> (t_matvec (t_run T h) x).2 = Err ValueError].
Proof.
have [T eT iT] := t_initP c r cast; exists T => // h x; case: (t_runP h iT) => z [sz ->] {eT iT}.
rewrite /t_matvec /t__matvec /= drop_size_cat //; split.
- by move=> ->.
- by move=> ->.
- by move=> c0; rewrite c0; case: x => //= y x; rewrite c0.
move=> ne; case: eqP => //= sx; rewrite /fft size_map.
have -> : size ([seq cast y | y <- x] ++ nseq (size c) 0) = (size c + size c)%N by rewrite size_cat size_map size_nseq sx.
case: eqP => //= n0; rewrite /mul_bcast !size_map !size_iota size_ddata.
move: (size (odflt c r)) ne => k ne.
do 3 (case: eqP => [e|_] //; first by exfalso; clear -ne n0 e; lia).
Qed.
End P.

Section Ex66.
Variable F : rcfType.
Let rt := @root_ref F.
Let rtP : forall N, (0 < N)%N -> N.-primitive_root (rt N) := @root_refP F.
Lemma vals2 (v : 'cV[F]_2) : vals v = [:: v ord0 0; v ord_max 0].
Proof.
apply: (@eq_from_nth _ 0); rewrite size_vals // => i hi.
rewrite (nth_map (Ordinal hi)) ?size_enum_ord //.
by case: i hi => [|[|//]] hi /=; congr (v _ _); apply: val_inj; rewrite /= nth_enum_ord.
Qed.
(* column (1,2) and row (1,3): x = (1,0) gives (1, 5/2) instead of (1, 2), and with
   the row left out (1, 2); after a failing call and a call with another vector *)
Example C66_ex : let c := [:: 1; 2%:R] : seq F in let x := [:: 1; 0] : seq F in
  let h := [:: TMatvec [:: 7%:R]; TPrivate [:: 3%:R; 4%:R]] : seq (tcall F) in
  exists T1 T2, [/\ t_init rt c None id = Ok T1, (t_matvec rt (t_run rt T1 h) x).2 = Ok [:: 1; 2%:R],
    t_init rt c (Some [:: 1; 3%:R]) id = Ok T2 & (t_matvec rt (t_run rt T2 h) x).2 = Ok [:: 1; 5%:R / 2%:R]].
Proof.
move=> c x h; have [T1 e1 H1] := @C66_symmetric F rt rtP c id isT.
have [T2 e2 H2] := @C66_symmetric_part F rt rtP c [:: 1; 3%:R] id isT erefl.
exists T1, T2; split=> //.
  rewrite H1 // !map_id; congr Ok; rewrite vals2 !mxE.
  by rewrite !big_ord_recl !big_ord0 !mxE /= !mulr0 !mulr1 !addr0.
rewrite H2 // !map_id; congr Ok; rewrite vals2 !mxE.
rewrite !big_ord_recl !big_ord0 !mxE /= !mulr0 !mulr1 !addr0.
by congr [:: _; _]; field.
Qed.
End Ex66.

(* ---- C67 ------------------------------------------------------------------------------ *)
Section P67.
Variable F : rcfType.
Variable arpack : (seq F -> seq F) -> nat -> F.

(* characteristic polynomial of (M + a I) / b *)
Lemma char_poly_affine n (M : 'M[F]_n) (a b : F) (s : seq F) : b != 0 ->
  char_poly M = \prod_(x <- s) ('X - x%:P) ->
  char_poly (b^-1 *: (M + a%:M)) = \prod_(x <- s) ('X - ((x + a) / b)%:P).
Proof.
move=> b0 cM; set N := b^-1 *: _; pose q : {poly F} := b *: 'X - a%:P.
have E : map_mx (comp_poly q) (char_poly_mx M) = b%:P *: char_poly_mx N.
  apply/matrixP => i j; rewrite !mxE /= comp_polyB comp_polyC.
  have bK (x : F) : b%:P * (b^-1 * x)%:P = x%:P by rewrite -polyCM mulrA mulfV // mul1r.
  rewrite mulrBr bK; case: eqP => _ /=.
    by rewrite !mulr1n comp_polyX /q polyCD opprD addrA -mul_polyC addrAC.
  by rewrite !mulr0n comp_poly0 addr0 mulr0.
have [bn0 sn] : b ^+ n != 0 /\ size s = n.
  split; first exact: expf_neq0.
  by apply/eqP; rewrite -eqSS -(size_prod_XsubC s id) -cM size_char_poly.
apply: (@mulfI _ (b ^+ n)%:P); first by rewrite polyC_eq0.
rewrite [LHS](_ : _ = char_poly M \Po q); last first.
  by rewrite polyC_exp -detZ -E det_map_mx.
rewrite cM -sn /q {E N q cM sn bn0 M n}; elim: s => [|x s IH]; first by rewrite !big_nil expr0 mul1r -polyC1 comp_polyC.
rewrite !big_cons comp_polyM IH /= exprS polyCM.
have -> : ('X - x%:P) \Po (b *: 'X - a%:P) = b%:P * ('X - ((x + a) / b)%:P).
  rewrite comp_polyB comp_polyX comp_polyC mulrBr -polyCM [b * (_ / _)]mulrC divfK //.
  by rewrite mul_polyC polyCD opprD addrA addrAC.
by rewrite -!mulrA; congr (_ * _); rewrite mulrCA.
Qed.

Section Op.
Variables (n : nat) (M : 'M[F]_n) (f : seq F -> seq F).
Hypothesis n2 : (1 < n)%N.
(* f is the matvec of an operator with matrix M *)
Hypothesis fM : forall x, size x = n -> f x = vals (M *m colv n x).
Let alpha := arpack f n.

Theorem C67_matrix itv : alpha != 0 ->
  exists2 o, normalize_unit arpack f n n itv = Ok o &
  forall x, size x = n -> lop_apply o x = vals ((2%:R * alpha)^-1 *: (M + alpha%:M) *m colv n x).
Proof.
move=> a0; rewrite /normalize_unit /eigsh1 eqxx leqNgt n2 /= /lop_div -/alpha.
rewrite mulf_eq0 pnatr_eq0 /= (negPf a0); eexists; first by reflexivity.
move=> x sx /=; rewrite (fM sx); apply: (@eq_from_nth _ 0).
  by rewrite 2!size_map size_zip !size_vals size_map sx minnn.
move=> i; rewrite 2!size_map size_zip size_vals size_map sx minnn => hi.
have sz : size (zip (vals (M *m colv n x)) [seq alpha * y | y <- x]) = n by rewrite size_zip size_vals size_map sx minnn.
rewrite (nth_map 0) ?size_map ?sz // (nth_map (0, 0)) ?sz //.
rewrite nth_zip ?size_vals ?size_map ?sx // (nth_map 0) ?sx //=.
rewrite !(nth_vals _ hi).
rewrite -scalemxAl mulmxDl mul_scalar_mx !mxE div1r; congr (_ * (_ + _ * _)).
Qed.

(* with alpha of maximal modulus among the eigenvalues s of M: the eigenvalues are the
   (x + alpha) / (2 alpha), they lie in [0,1], and 1 is one of them *)
Theorem C67_spectrum (s : seq F) : alpha != 0 ->
  char_poly M = \prod_(x <- s) ('X - x%:P) -> alpha \in s -> (forall x, x \in s -> `|x| <= `|alpha|) ->
  let N := (2%:R * alpha)^-1 *: (M + alpha%:M) in
  [/\ char_poly N = \prod_(x <- [seq (x + alpha) / (2%:R * alpha) | x <- s]) ('X - x%:P),
      forall mu, eigenvalue N mu -> 0 <= mu <= 1,
      forall mu, eigenvalue N mu -> -1 <= mu <= 1 &
      eigenvalue N 1].
Proof.
move=> a0 cM ain amax N; have b0 : 2%:R * alpha != 0 by rewrite mulf_neq0 ?pnatr_eq0.
have cN : char_poly N = \prod_(x <- [seq (x + alpha) / (2%:R * alpha) | x <- s]) ('X - x%:P).
  by rewrite big_map; apply: char_poly_affine.
have H mu : eigenvalue N mu -> 0 <= mu <= 1.
  rewrite eigenvalue_root_char cN root_prod_XsubC => /mapP[x xs ->].
  have := amax x xs; rewrite ler_norml; case: (ltgtP alpha 0) a0 => // ha _.
    rewrite (ltr0_norm ha) opprK => /andP[h1 h2].
    have bn : 2%:R * alpha < 0 by rewrite pmulr_rlt0 ?ltr0n.
    rewrite ler_ndivl_mulr // ler_ndivr_mulr // mul0r mul1r mulr_natl mulr2n ler_add2r h1 andbT.
    by rewrite -ler_subr_addr sub0r.
  rewrite (gtr0_norm ha) => /andP[h1 h2].
  have bn : 0 < 2%:R * alpha by rewrite pmulr_rgt0 ?ltr0n.
  rewrite ler_pdivl_mulr // ler_pdivr_mulr // mul0r mul1r mulr_natl mulr2n ler_add2r h2 andbT.
  by rewrite -ler_subl_addr sub0r.
split=> //.
- by move=> mu /H /andP[h1 ->]; rewrite (le_trans _ h1) // oppr_le0.
- rewrite eigenvalue_root_char cN root_prod_XsubC; apply/mapP; exists alpha => //.
  by rewrite -[alpha + alpha]mulr2n -[alpha *+ 2]mulr_natl divff.
Qed.

(* `interval` has no effect; an interval without 1 is never respected *)
Theorem C67_interval_refuted (s : seq F) itv : alpha != 0 ->
  char_poly M = \prod_(x <- s) ('X - x%:P) -> alpha \in s -> (forall x, x \in s -> `|x| <= `|alpha|) ->
  (forall itv', normalize_unit arpack f n n itv' = normalize_unit arpack f n n itv) /\
  (~~ (itv.1 <= 1 <= itv.2) -> forall o (N : 'M[F]_n), normalize_unit arpack f n n itv = Ok o ->
     (forall x, size x = n -> lop_apply o x = vals (N *m colv n x)) ->
     exists2 mu, eigenvalue N mu & ~~ (itv.1 <= mu <= itv.2)).
Proof.
move=> a0 cM ain amax; split=> // out o N eo oN; exists 1 => //.
have [o' eo' H] := C67_matrix itv a0; move: eo'; rewrite eo => -[eo'].
have [_ _ _ e1] := C67_spectrum a0 cM ain amax.
suff -> : N = (2%:R * alpha)^-1 *: (M + alpha%:M) by [].
apply/matrixP => i j; have := H (vals (delta_mx j 0 : 'cV[F]_n)) (size_vals _).
rewrite -eo' oN ?size_vals // => /vals_inj; rewrite valsK -!colE => /matrixP /(_ i 0).
by rewrite ![col _ _ _ _]mxE => ->.
Qed.
End Op.

Theorem C67_errors (f : seq F -> seq F) m n itv :
  [/\ m <> n -> normalize_unit arpack f m n itv = Err ValueError,
      (n <= 1)%N -> normalize_unit arpack f n n itv = Err TypeError &
      (1 < n)%N -> arpack f n = 0 -> normalize_unit arpack f n n itv = Err ZeroDivisionError].
Proof.
rewrite /normalize_unit /eigsh1; split.
- by move/eqP/negPf => ->.
- by rewrite eqxx => ->.
- by move=> n1 a0; rewrite eqxx leqNgt n1 /= a0 /lop_div mulr0 eqxx.
Qed.
End P67.

Section Ex67.
Variable F : rcfType.
(* diag(3, -1): alpha = 3, the normalised operator is diag(1, 1/3) *)
Let M : 'M[F]_2 := \matrix_(i, j) (if i == j then if i == ord0 then 3%:R else -1 else 0).
Let f (x : seq F) : seq F := [:: 3%:R * x`_0; - x`_1].
Let arp (_ : seq F -> seq F) (_ : nat) : F := 3%:R.
Example C67_ex : [/\ forall x, size x = 2%N -> f x = vals (M *m colv 2 x), arp f 2 != 0,
    char_poly M = \prod_(x <- [:: 3%:R; -1]) ('X - x%:P) & forall x, x \in [:: 3%:R; -1 : F] -> `|x| <= `|arp f 2| ].
Proof.
split.
- move=> x sx; rewrite vals2 !mxE !big_ord_recl !big_ord0 !mxE /= !mul0r !addr0 add0r mulN1r.
  by rewrite /f; case: x sx => [|x0 [|x1 [|]]].
- by rewrite pnatr_eq0.
- rewrite /char_poly (expand_det_row _ ord0) !big_ord_recl big_ord0 addr0 /cofactor !det_mx11 !mxE /=.
  by rewrite !big_cons big_nil; ring.
- by move=> x; rewrite !inE /arp => /orP[]/eqP->; rewrite ?normrN ?normr1 ?normr_nat ?ler_nat ?ler1n.
Qed.
End Ex67.

Print Assumptions C66_symmetric.
Print Assumptions C66_symmetric_part.
Print Assumptions C66_row_refuted.
Print Assumptions C66_errors.
Print Assumptions C67_matrix.
Print Assumptions C67_spectrum.
Print Assumptions C67_interval_refuted.
Print Assumptions C67_errors.
