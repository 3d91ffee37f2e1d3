(* Properties C62 (MatrixFunction construction) and C79 (operator validation). *)
From Coq Require Import String.
From mathcomp Require Import all_ssreflect all_algebra zify.
From Verif Require Import Base ModelTyping ModelLanczos ModelTqli ModelQuadrature ModelSpecial ModelOperators PropSpecial.
Set Implicit Arguments.
Unset Strict Implicit.
Unset Printing Implicit Defensive.
Import Order.TTheory GRing.Theory Num.Theory.
Local Open Scope string_scope.
Local Open Scope ring_scope.

(* ---- C79 ---------------------------------------------------------------------------- *)
(* the object has some product method and is square in its first two dimensions *)
Definition has_product (o : odesc) : Prop := o_at o \/ o_matmul o \/ o_dot o \/ o_matvec o.
Definition square_shape (o : odesc) (n : nat) : Prop := exists rest, o_shape o = Some [:: n, n & rest].
(* its dtype, or, without that attribute, the dtype of its product with a vector *)
Definition dtype_is (o : odesc) (d : dty) : Prop := o_dtype o = Some (Some d) \/ o_dtype o = None /\ o_at o /\ o_prod o = d.
(* the dtype can be found out: it is not None, and when it is missing there is `@` *)
Definition dtype_known (o : odesc) : Prop := o_dtype o <> Some None /\ (o_dtype o = None -> o_at o).

Lemma o_anyP o : reflect (has_product o) (o_any o).
Proof.
rewrite /o_any /has_product; apply: (iffP idP) => [/or4P[]|[->|[->|[->|->]]]]; rewrite ?orbT //; auto.
Qed.

Lemma square2 o s : o_shape o = Some s -> (2 <= size s)%N -> nth 0%N s 0 = nth 0%N s 1 -> square_shape o (nth 0%N s 0).
Proof. by case: s => [|a [|b s]] //= e _ h; exists s; rewrite e h. Qed.

Theorem C79_valid_iff (o : odesc) (d : dty) :
  is_valid_operator o = Ok d <->
  [/\ has_product o, (exists n, square_shape o n), dtype_is o d & d <> OtherDtype].
Proof.
rewrite /is_valid_operator; split.
  case: o_anyP => // h; case E: (o_shape o) => [s|] //; case: ltnP => // s2.
  case: eqP => //= sq; have S := square2 E s2 sq.
  case Ed: (o_dtype o) => [[dd|]|] //=.
    by case: dd Ed => //= Ed [<-]; split=> //; [eexists; exact: S|left|eexists; exact: S|left].
  case: (boolP (o_at o)) => //= ha; case Ep: (o_prod o) => //= -[<-]; split=> //; try (by eexists; exact: S); by right.
case=> h [n [rest E]] hd nd; move/o_anyP: h => -> /=; rewrite E /= eqxx /=.
case: hd => [->|[-> [-> ->]]] /=; by case: d nd.
Qed.

(* every object that is not accepted makes it raise AssertionError -- provided its
   dtype can be found out *)
Theorem C79_rejects (o : odesc) : dtype_known o ->
  ~ (exists d, is_valid_operator o = Ok d) -> is_valid_operator o = Err AssertionError.
Proof.
case=> dn da; rewrite /is_valid_operator; case: ifP => // _; case: (o_shape o) => // s; case: ifP => // _; case: ifP => // _.
case E: (o_dtype o) dn => [[d|]|] // _ /=; first by case: d E => //= _ []; eexists.
by rewrite da //=; case: (o_prod o) => //= -[]; eexists.
Qed.

(* ... otherwise not: dtype None (allowed by LinearOperator) raises AttributeError,
   and an object with matvec only and no dtype raises TypeError *)
Theorem C79_dtype_refuted (o : odesc) : has_product o -> (exists n, square_shape o n) ->
  (o_dtype o = Some None -> is_valid_operator o = Err AttributeError) /\
  (o_dtype o = None -> ~~ o_at o -> is_valid_operator o = Err TypeError).
Proof.
move=> /o_anyP h [n [rest E]]; rewrite /is_valid_operator h E /= eqxx /=.
by split=> [->|->] //= /negPf ->.
Qed.

(* is_linear_op answers for every shape of length >= 2 *)
Theorem C79_linear_op (o : odesc) s : o_shape o = Some s -> (2 <= size s)%N ->
  exists b : bool, is_linear_op o = Ok b /\ (b <-> has_product o /\ exists n, square_shape o n).
Proof.
move=> E s2; rewrite /is_linear_op E ltnNge s2 /=; eexists; split; first by [].
split=> [/andP[/o_anyP h /eqP sq]|[/o_anyP -> [n [rest E']]]].
  by split=> //; exists (nth 0%N s 0); apply: square2 E s2 sq.
by move: E'; rewrite E => -[->] /=; rewrite eqxx.
Qed.

(* but raises, instead of answering False, when shape is missing or shorter *)
Theorem C79_linear_op_refuted (o : odesc) :
  (o_shape o = None -> is_linear_op o = Err AttributeError) /\
  (forall s, o_shape o = Some s -> (size s < 2)%N -> is_linear_op o = Err IndexError).
Proof. by rewrite /is_linear_op; split=> [->|s -> ->]. Qed.

(* an array, a LinearOperator, a LinearOperator without dtype, a vector *)
Definition ex_array : odesc := ODesc true false true false (Some [:: 3%N; 3%N]) (Some (Some F64)) F64.
Definition ex_linop : odesc := ODesc true false true true (Some [:: 3%N; 3%N]) (Some None) F64.
Definition ex_duck : odesc := ODesc false false false true (Some [:: 3%N; 3%N]) None F64.
Definition ex_vector : odesc := ODesc true false true false (Some [:: 3%N]) (Some (Some F64)) F64.
Example C79_ex : [/\ is_valid_operator ex_array = Ok F64, is_valid_operator ex_linop = Err AttributeError,
  is_valid_operator ex_duck = Err TypeError, is_valid_operator ex_vector = Err AssertionError &
  is_linear_op ex_array = Ok true /\ is_linear_op ex_linop = Ok true /\ is_linear_op ex_vector = Err IndexError].
Proof. by []. Qed.

(* ---- C62 ---------------------------------------------------------------------------- *)
Section C62.
Variable F : rcfType.
Variables (fexp flog : F -> F) (feps : F).
Local Notation mf_init := (mf_init fexp flog feps).

(* the function argument is acceptable: None, the name of a built-in function, or
   a callable that maps the vector of ones to an array of the same length *)
Definition names : seq string := [:: "identity"; "abs"; "sqrt"; "log"; "inv"; "exp"; "smoothstep"; "numrank"].
Definition fun_ok (n : nat) (f : mfarg F) : Prop :=
  match f with
  | MNone => True
  | MStr s => List.In s names
  | MCall g => exists v, g (nseq n 1) = FVec true v /\ size v = n
  | MOther => False
  end.

Lemma builtin_size (s : string) kw g xs : param_callable fexp flog feps (XStr s) kw = Ok g -> size (g xs) = size xs.
Proof.
rewrite /param_callable; case: ifP => // _.
do !(case: ifP => _; first by case=> <-; rewrite ?size_map).
by [].
Qed.

(* the two facts used about param_callable *)
Lemma pc_facts : exists pc, [/\ pc = param_callable fexp flog feps,
  (forall s kw g xs, pc (XStr s) kw = Ok g -> size (g xs) = size xs),
  (forall s kw, List.In s names -> exists f, pc (XStr s) kw = Ok f) &
  (forall s kw, ~ List.In s names -> pc (XStr s) kw = Err AssertionError)].
Proof.
exists (param_callable fexp flog feps); split=> // [s kw g xs|s kw|s kw]; first exact: builtin_size.
- by have [h _] := @C77_names F fexp flog feps s kw.
- by have [_ [h _]] := @C77_names F fexp flog feps s kw.
Qed.

Lemma fun_checkP n (g : mfun F) : fun_check n g = Ok tt <-> exists v, g (nseq n 1) = FVec true v /\ size v = n.
Proof.
rewrite /fun_check; split.
  by case E: (g _) => [[] v|[] x] //; case: eqP => // h _; exists v.
by case=> v [-> ->]; rewrite eqxx.
Qed.

Lemma fun_check_tt n (g : mfun F) u : fun_check n g = Ok u -> fun_check n g = Ok tt.
Proof. by case: u. Qed.

(* accepted exactly when the operator has a product method and is square, deg >= 2
   and the function is acceptable *)
Theorem C62_accepts_iff (o : odesc) (f : mfarg F) kw deg orth d :
  (exists M, mf_init o f kw deg orth d = Ok M) <->
  [/\ has_product o, (2 <= deg)%R & exists n, square_shape o n /\ fun_ok n f].
Proof.
have [pc [Epc pc1 pc2 pc3]] := pc_facts.
rewrite /ModelOperators.mf_init -Epc /is_linear_op; split.
  case=> M; case E: (o_shape o) => [s|] //=; case: ltnP => // s2 /=.
  case: o_anyP => //= ha; case: eqP => //= sq; case: ltP => //= dg.
  set n := nth 0%N s 0; rewrite -/n in sq *.
  case: f => [|s'|g|]; cbn [bind]; try by [].
  - by move=> _; split=> //; exists n; split=> //; exact: square2 E s2 sq.
  - case Ep: (pc (XStr s') kw) => [g|] //= _; split=> //; exists n; split; first exact: square2 E s2 sq.
    by case: (List.in_dec String.string_dec s' names) => // hn; move: Ep; rewrite pc3.
  - case Ef: (fun_check n g) => [u|] //= _; split=> //; exists n; split; first exact: square2 E s2 sq.
    by apply/fun_checkP; exact: fun_check_tt Ef.
case=> /o_anyP ha dg [n [[rest E] hf]]; rewrite E /= ha eqxx /= ltNge dg /=.
case: f hf => [|s'|g|]; cbn [bind fun_ok]; try by []; move=> hf.
- by rewrite /fun_check size_map size_nseq eqxx /=; eexists.
- have [g Eg] := pc2 s' kw hf.
  by rewrite Eg /= /fun_check (pc1 _ _ _ _ Eg) size_nseq eqxx /=; eexists.
- by move/fun_checkP: hf => -> /=; eexists.
Qed.

(* every rejection is an AssertionError, but for operators without a shape of
   length >= 2 and callables that return a 0-d array *)
Theorem C62_rejects (o : odesc) (f : mfarg F) kw deg orth d s :
  o_shape o = Some s -> (2 <= size s)%N -> (forall g, f = MCall g -> forall x, g (nseq (nth 0%N s 0) 1) <> FSca true x) ->
  ~ (exists M, mf_init o f kw deg orth d = Ok M) -> mf_init o f kw deg orth d = Err AssertionError.
Proof.
have [pc [Epc pc1 pc2 pc3]] := pc_facts.
move=> E s2 hg; rewrite /ModelOperators.mf_init -Epc /is_linear_op E ltnNge s2 /=.
case: ifP => //= _; case: ifP => // dg; case: f hg => [|s'|g|]; cbn [bind]; try by []; move=> hg.
- by rewrite /fun_check size_map size_nseq eqxx /= => -[]; eexists.
- case: (List.in_dec String.string_dec s' names) => hn; last by rewrite pc3.
  by have [g Eg] := pc2 s' kw hn; rewrite Eg /= /fun_check (pc1 _ _ _ _ Eg) size_nseq eqxx /= => -[]; eexists.
- rewrite /fun_check; have := hg g erefl; case: (g _) => [[] v|[] x] //= h.
    by case: ifP => // _ []; eexists.
  by case: (h x).
Qed.

(* what is built: degree min(deg, n), orth as given or degree, all buffers zero *)
Theorem C62_fields (o : odesc) (f : mfarg F) kw deg orth d M n :
  square_shape o n -> mf_init o f kw deg orth d = Ok M ->
  [/\ mf_n M = n /\ (mf_deg M)%:Z = Num.min deg n%:Z,
      0 <= mf_orth M <= (mf_deg M)%:Z /\ (0 <= orth <= (mf_deg M)%:Z -> mf_orth M = orth) /\
        (orth < 0 \/ (mf_deg M)%:Z < orth -> mf_orth M = (mf_deg M)%:Z),
      mf_alpha M = nseq (mf_deg M).+1 0 /\ mf_beta M = nseq (mf_deg M).+1 0,
      mf_nodes M = nseq (mf_deg M) 0 /\ mf_weights M = nseq (mf_deg M) (Fin 0) /\ mf_Q M = nseq (n * mf_deg M) 0 &
      mf_dt M = d /\ mf_mv M = o_matvec o /\
        match f with
        | MNone => forall xs, mf_fun M xs = FVec true [seq Fin x | x <- xs]
        | MStr s => exists g, param_callable fexp flog feps (XStr s) kw = Ok g /\ forall xs, mf_fun M xs = FVec true (g xs)
        | MCall g => mf_fun M = g
        | MOther => False
        end].
Proof.
have [pc [Epc pc1 pc2 pc3]] := pc_facts.
case=> rest E; rewrite /ModelOperators.mf_init -Epc /is_linear_op E /= eqxx andbT.
case: ifP => //= _; case: ltP => //= dg.
have D : (minn `|deg| n)%:Z = Num.min deg n%:Z by lia.
have O : let o := if (orth < 0) || ((minn `|deg| n)%:Z < orth) then (minn `|deg| n)%:Z else orth in
  0 <= o <= (minn `|deg| n)%:Z /\ (0 <= orth <= (minn `|deg| n)%:Z -> o = orth) /\
  (orth < 0 \/ (minn `|deg| n)%:Z < orth -> o = (minn `|deg| n)%:Z).
  by rewrite /=; move: (minn _ _)%:Z (le0z_nat (minn `|deg| n)) => z z0; case: ifP; lia.
case: f => [|s'|g|]; cbn [bind]; try by [].
- by case: (fun_check _ _) => //= _ [<-] /=; split.
- by case Eg: (pc (XStr s') kw) => [g|] //=; case: (fun_check _ _) => //= _ [<-] /=; split=> //; do 2 (split=> //); exists g.
- by case: (fun_check _ _) => //= _ [<-] /=; split.
Qed.

Example C62_ex : exists M : mfobj F, mf_init ex_array MNone (no_kw F) 20 3 F64 = Ok M /\ mf_deg M = 3%N /\ mf_orth M = 3.
Proof.
have [h1 h2] := C62_accepts_iff ex_array MNone (no_kw F) 20 3 F64.
have [|M EM] := h2.
  by split=> //; [left|exists 3%N; split=> //; exists [::]].
exists M; split=> //; have [|[_ D] [_ [O _]] _ _ _] := C62_fields (n := 3) _ EM; first by exists [::].
have D3 : mf_deg M = 3%N by case: D.
by split=> //; apply: O; rewrite D3.
Qed.
End C62.

Print Assumptions C79_valid_iff.
Print Assumptions C79_rejects.
Print Assumptions C79_dtype_refuted.
Print Assumptions C79_linear_op.
Print Assumptions C79_linear_op_refuted.
Print Assumptions C62_accepts_iff.
Print Assumptions C62_rejects.
Print Assumptions C62_fields.
