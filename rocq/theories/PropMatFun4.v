(* Examples for C55-C62. *)
From Coq Require Import String.
From mathcomp Require Import all_ssreflect all_algebra zify ring.
From Verif Require Import Base ModelXtrace LemXtrace ModelTyping ModelLanczos LemLanczos SpecLanczos LemLanczos2 LemLanczos3 LemLanczos4
  ModelTqli ModelQuadrature ModelSpecial ModelOperators SpecTridiag SpecQuad SpecOperators LemSpectral LemQuad PropQuad
  PropOperators LemOperators LemOperators2 PropLanczos4 PropMatFun PropMatFun2 PropMatFun3.
Set Implicit Arguments.
Unset Strict Implicit.
Unset Printing Implicit Defensive.
Import Order.TTheory GRing.Theory Num.Theory.
Local Open Scope string_scope.
Local Open Scope ring_scope.

Section P.
Variable F : rcfType.
Variables (fexp flog : F -> F) (feps : F).
(* machine epsilon 2^-52 or any other; the reference LAPACK *)
Variable eps : F.
Hypothesis eps0 : 0 <= eps.
Notation lv := (@ref_vals F).
Notation lp := (@ref_pairs F).
Notation ini n g := (mf_init fexp flog feps (sq_array n) (fcall g) (no_kw F)).
Notation quad A := (mf_quad eps lv lp A KDense F64).
Notation matvec A := (mf_matvec eps lv lp A KDense F64).
Notation P := (P3 (0 : F)).
Notation sq := (fun t : F => Fin (t ^+ 2)).

Lemma P3_stop i k d : (i == 0 \/ i == 2)%N -> (0 < k <= 3)%N ->
  stop_at (P3 d) ((vnorm (vec 3 (e3 F i)))^-1 *: vec 3 (e3 F i)) (Num.sqrt 3%:R * (1 / 10%:R ^+ 8)) k k.
Proof.
move=> hi /andP[k0 hk]; rewrite vec3; last by case: hi => /eqP ->.
rewrite unit3; last by case: hi => /eqP ->.
split; [by rewrite k0 leqnn| |by left] => j /andP[j0 jk].
by case: hi => /eqP ->; rewrite ?P3_lb0 ?P3_lb2 ?tol_le1 // j0 (leq_trans jk).
Qed.

Lemma P3_sq i : (i == 0 \/ i == 2)%N -> qform (polymx 'X^2 P) (E3 F i) = 1.
Proof.
move=> hi; rewrite polymxXn /qform /= mulmx1.
have -> : (E3 F i)^T *m (P *m P) *m E3 F i = (P *m E3 F i)^T *m (P *m E3 F i) by rewrite trmx_mul P3_sym !mulmxA.
by rewrite -/(dt _ _); case: hi => /eqP ->; rewrite ?P3_0 ?P3_2 scale0r add0r scale1r E3dt.
Qed.

Lemma sq_applies (f : mfun F) : xapplies f sq -> applies f (fun t => ('X^2 : {poly F}).[t]).
Proof. by move=> h xs; rewrite h; apply: eq_map => t; rewrite hornerXn. Qed.

(* the path of three vertices, t^2, default arguments: quad, matvec, scaling *)
Example C55_ex : exists M0, [/\ ini 3 sq 20 3 F64 = Ok M0,
  (quad P M0 [:: e3 F 0]).1 = Ret [:: Fin 1],
  (matvec P M0 (e3 F 0)).1 = Ret [:: Fin 1; Fin 0; Fin 1] &
  (quad P M0 [:: [seq 5%:R * t | t <- e3 F 0]]).1 = Ret [:: Fin (5%:R ^+ 2 * 1)]].
Proof.
have [M0 [E0 B hf d0 _]] := @ex_built F eps fexp flog feps eps0 3 sq 20 3 isT.
have {}d0 : mf_deg M0 = 3%N by rewrite d0.
have C0 : after_calls eps lv lp P KDense F64 M0 M0 by exists [::].
have hs : stop_at P ((vnorm (vec 3 (e3 F 0)))^-1 *: vec 3 (e3 F 0)) (Num.sqrt 3%:R * (1 / 10%:R ^+ 8)) (mf_deg M0) (mf_deg M0).
  by rewrite d0; apply: P3_stop; [left|].
have sz : (size ('X^2 : {poly F}) <= mf_deg M0)%N by rewrite d0 size_polyXn.
have sz2 : (size ('X^2 : {poly F}) <= (mf_deg M0).*2)%N by rewrite d0 size_polyXn.
have R := C55_gauss eps0 (@ref_ok F) (isT : (0 < 3)%N) (P3_sym 0) B C0 (or_introl erefl) (erefl : size (e3 F 0) = 3%N)
  (sq_applies hf) hs (or_introl (conj erefl sz2)).
rewrite vec3 // P3_sq in R; last by left.
exists M0; split=> //.
  rewrite (C56_krylov eps0 (@ref_ok F) (isT : (0 < 3)%N) (P3_sym 0) B C0 (erefl : size (e3 F 0) = 3%N)
    (sq_applies hf) hs (or_introl (conj erefl sz))).
  have -> : polymx 'X^2 P *m vec 3 (e3 F 0) = E3 F 0 + E3 F 2.
    by rewrite polymxXn /= mulmx1 vec3 // -mulmxA P3_0 scale0r add0r scale1r P3_1 scale0r addr0 !scale1r.
  by rewrite enum_ordSl enum_ordSl enum_ordSl enum_ord0 /= !mxE /= !(addr0, add0r).
by rewrite (C60_scale eps0 (@ref_ok F) (isT : (0 < 3)%N) (P3_sym 0) B C0 (or_introl erefl) (erefl : size (e3 F 0) = 3%N)) ?pnatr_eq0 // R.
Qed.

(* any function when the degree is the dimension *)
Example C55_exact_ex (g : F -> F) : exists M0 B, [/\ ini 3 (fun t => Fin (g t)) 20 3 F64 = Ok M0, is_mxfun g P B,
  (quad P M0 [:: e3 F 0]).1 = Ret [:: Fin (qform B (E3 F 0))] &
  (matvec P M0 (e3 F 0)).1 = Ret [seq Fin ((B *m E3 F 0) i 0) | i <- enum 'I_3]].
Proof.
have [M0 [E0 B hf d0 _]] := @ex_built F eps fexp flog feps eps0 3 (fun t => Fin (g t)) 20 3 isT.
have {}d0 : mf_deg M0 = 3%N by rewrite d0.
have C0 : after_calls eps lv lp P KDense F64 M0 M0 by exists [::].
have hs : stop_at P ((vnorm (vec 3 (e3 F 0)))^-1 *: vec 3 (e3 F 0)) (Num.sqrt 3%:R * (1 / 10%:R ^+ 8)) (mf_deg M0) 3.
  by rewrite d0; apply: P3_stop; [left|].
have [Bx hB] := mxfun_exists (P3_sym 0) g; exists M0, Bx; split=> //.
  have := C55_exact eps0 (@ref_ok F) (isT : (0 < 3)%N) (P3_sym 0) B C0 (or_introl erefl) (erefl : size (e3 F 0) = 3%N) hf hB hs (or_introl erefl).
  by rewrite vec3.
have := C56_exact eps0 (@ref_ok F) (isT : (0 < 3)%N) (P3_sym 0) B C0 (erefl : size (e3 F 0) = 3%N) hf hB hs (or_introl erefl).
by rewrite vec3.
Qed.

(* orth = 2: the columns of one call, and later calls, do not interfere *)
Example C59_ex : exists M0 M, [/\ ini 3 sq 20 2 F64 = Ok M0,
  mf_run eps lv lp P KDense F64 M0 [:: CQuad [:: e3 F 0]; CMatvec (e3 F 2)] = Some M,
  (quad P M0 [:: e3 F 0; e3 F 2]).1 = Ret [:: Fin 1; Fin 1],
  (quad P M [:: e3 F 2]).1 = Ret [:: Fin 1] & (matvec P M (e3 F 0)).1 = (matvec P M0 (e3 F 0)).1].
Proof.
have [M0 [E0 B hf d0 o0]] := @ex_built F eps fexp flog feps eps0 3 sq 20 2 isT.
have {}d0 : mf_deg M0 = 3%N by rewrite d0. have {}o0 : mf_orth M0 = 2 by exact: o0.
have C0 : after_calls eps lv lp P KDense F64 M0 M0 by exists [::].
have hs i : (i == 0 \/ i == 2)%N -> stop_at P ((vnorm (vec 3 (e3 F i)))^-1 *: vec 3 (e3 F i)) (Num.sqrt 3%:R * (1 / 10%:R ^+ 8)) (mf_deg M0) (mf_deg M0).
  by move=> hi; rewrite d0; apply: P3_stop.
have sz2 : (size ('X^2 : {poly F}) <= (mf_deg M0).*2)%N by rewrite d0 size_polyXn.
have i0 : (0 == 0 \/ 0 == 2)%N by left. have i2 : (2 == 0 \/ 2 == 2)%N by right.
have o2 : mf_orth M0 <= 2 by rewrite o0.
have Rq M X : after_calls eps lv lp P KDense F64 M0 M -> (forall x, x \in X -> x = e3 F 0 \/ x = e3 F 2) ->
    (quad P M X).1 = Ret [seq Fin (qform (polymx 'X^2 P) (vec 3 x)) | x <- X].
  move=> C hX; apply: (C55_columns eps0 (@ref_ok F) (isT : (0 < 3)%N) (P3_sym 0) B C o2 (sq_applies hf)) => x /hX hx.
  split; first by case: hx => ->.
  exists (mf_deg M0); split; first by case: hx => ->; apply: hs.
  by left; split=> //; exists 'X^2.
have Rm M : after_calls eps lv lp P KDense F64 M0 M -> exists y, (matvec P M (e3 F 2)).1 = Ret y.
  move=> C; eexists; apply: (C56_krylov eps0 (@ref_ok F) (isT : (0 < 3)%N) (P3_sym 0) B C (erefl : size (e3 F 2) = 3%N)
    (sq_applies hf) (hs _ i2)); left; split=> //.
  by rewrite d0 size_polyXn.
have q0 : qform (polymx 'X^2 P) (vec 3 (e3 F 0)) = 1 by rewrite vec3 // P3_sq.
have q2 : qform (polymx 'X^2 P) (vec 3 (e3 F 2)) = 1 by rewrite vec3 // P3_sq.
have [M1 Eq] : exists M1, quad P M0 [:: e3 F 0] = (Ret [:: Fin 1], M1).
  exists (quad P M0 [:: e3 F 0]).2; rewrite [LHS]surjective_pairing; congr pair.
  by rewrite Rq // => [|x]; [rewrite -q0|rewrite inE => /eqP; left].
have C1 : after_calls eps lv lp P KDense F64 M0 M1.
  by exists [:: CQuad [:: e3 F 0]]; rewrite /mf_run /mf_call Eq.
have [y E2] := Rm M1 C1.
have [M2 Em] : exists M2, matvec P M1 (e3 F 2) = (Ret y, M2).
  by exists (matvec P M1 (e3 F 2)).2; rewrite [LHS]surjective_pairing E2.
have R2 : mf_run eps lv lp P KDense F64 M0 [:: CQuad [:: e3 F 0]; CMatvec (e3 F 2)] = Some M2.
  by rewrite /mf_run /mf_call Eq Em.
have C2 : after_calls eps lv lp P KDense F64 M0 M2 by exists [:: CQuad [:: e3 F 0]; CMatvec (e3 F 2)].
exists M0, M2; split=> //.
- rewrite Rq // => [|x]; first by rewrite /= q0 q2.
  by rewrite !inE => /orP[/eqP|/eqP]; [left|right].
- rewrite (C59_quad eps0 (@ref_ok F) (isT : (0 < 3)%N) (P3_sym 0) B C2 o2) => [|x].
    by rewrite Rq // => [|x]; [rewrite /= q2|rewrite inE => /eqP; right].
  by rewrite inE => /eqP ->; split=> //; exact: hs.
- by apply: (C59_matvec eps0 (@ref_ok F) (isT : (0 < 3)%N) (P3_sym 0) B C2) => //; exact: hs.
Qed.

Lemma id_stop : stop_at 1%:M (E2 F 0) (Num.sqrt 2%:R * (1 / 10%:R ^+ 8)) 2 1 /\ lb 1%:M (E2 F 0) 1 = 0.
Proof.
have h : lb 1%:M (E2 F 0) 1 = 0.
  by rewrite lbS lrE laE lb0 scale0r subr0 lq0 mul1mx E2dt // scale1r subrr vnormE dt0r sqrtr0.
split=> //; split=> //; [by case=> [|[|]]|right].
by rewrite h mulr_gt0 ?sqrtr_gt0 ?ltr0n // divr_gt0 ?ltr01 ?exprn_gt0 ?ltr0n.
Qed.

Notation I2 := (1%:M : 'M[F]_2).
(* an exact early stop: both calls agree with f(A) *)
Example C59_exact_stop_ex (g : F -> F) : exists M0 M B, [/\ ini 2 (fun t => Fin (g t)) 20 3 F64 = Ok M0,
  mf_run eps lv lp I2 KDense F64 M0 [:: CMatvec (e1 F)] = Some M, is_mxfun g I2 B,
  stop_at I2 (E2 F 0) (Num.sqrt 2%:R * (1 / 10%:R ^+ 8)) 2 1 &
  (quad I2 M [:: e1 F]).1 = Ret [:: Fin (qform B (vec 2 (e1 F)))] /\ (matvec I2 M (e1 F)).1 = (matvec I2 M0 (e1 F)).1].
Proof.
have [M0 [E0 B hf d0 _]] := @ex_built F eps fexp flog feps eps0 2 (fun t => Fin (g t)) 20 3 isT.
have {}d0 : mf_deg M0 = 2%N by rewrite d0.
have C0 : after_calls eps lv lp I2 KDense F64 M0 M0 by exists [::].
have sI : I2^T = 1%:M by rewrite trmx1.
have Se : (vnorm (vec 2 (e1 F)))^-1 *: vec 2 (e1 F) = E2 F 0 by exact: E2_start.
have [hs hl] := id_stop.
have hs0 : stop_at I2 ((vnorm (vec 2 (e1 F)))^-1 *: vec 2 (e1 F)) (Num.sqrt 2%:R * (1 / 10%:R ^+ 8)) (mf_deg M0) 1 by rewrite Se d0.
have hl0 : lb I2 ((vnorm (vec 2 (e1 F)))^-1 *: vec 2 (e1 F)) 1 = 0 by rewrite Se.
have [Bx hB] := mxfun_exists sI g.
have [M1 Em] : exists M1, matvec I2 M0 (e1 F) = (Ret [seq Fin ((Bx *m vec 2 (e1 F)) i 0) | i <- enum 'I_2], M1).
  exists (matvec I2 M0 (e1 F)).2; rewrite [LHS]surjective_pairing; congr pair.
  exact: (C56_exact eps0 (@ref_ok F) (isT : (0 < 2)%N) sI B C0 (erefl : size (e1 F) = 2%N) hf hB hs0 (or_intror hl0)).
have R1 : mf_run eps lv lp I2 KDense F64 M0 [:: CMatvec (e1 F)] = Some M1 by rewrite /mf_run /mf_call Em.
have C1 : after_calls eps lv lp I2 KDense F64 M0 M1 by exists [:: CMatvec (e1 F)].
have o2 : mf_orth M0 <= 2 by have [W _ _] := built_ok eps0 (isT : (0 < 2)%N) B; have /andP[_] := wf_orth W; rewrite d0.
exists M0, M1, Bx; split=> //; split.
  exact: (C55_exact eps0 (@ref_ok F) (isT : (0 < 2)%N) sI B C1 (or_intror o2) (erefl : size (e1 F) = 2%N) hf hB hs0 (or_intror hl0)).
by have [] := C59_exact_stop eps0 (@ref_ok F) (isT : (0 < 2)%N) sI B C1 (erefl : size (e1 F) = 2%N) hf hs0 hl0.
Qed.

(* the inverse on [[2, 1], [1, 2]] is finite, on the identity it is not *)
Example C61_ex : exists M0, ini 2 (@xinv F) 20 3 F64 = Ok M0 /\
  (exists z, (quad (A2 2%:R 1 2%:R) M0 [:: e1 F]).1 = Ret [:: Fin z]) /\
  (quad I2 M0 [:: e1 F]).1 = Ret [:: NaN] /\ (matvec I2 M0 (e1 F)).1 = Ret [:: NaN; NaN].
Proof.
have [M0 [E0 B hf d0 _]] := @ex_built F eps fexp flog feps eps0 2 (@xinv F) 20 3 isT.
have {}d0 : mf_deg M0 = 2%N by rewrite d0.
have Se : (vnorm (vec 2 (e1 F)))^-1 *: vec 2 (e1 F) = E2 F 0 by exact: E2_start.
have v0 : vec 2 (e1 F) != 0 by exact: v2n0.
exists M0; split=> //; split.
  have C0 : after_calls eps lv lp (A2 2%:R 1 2%:R) KDense F64 M0 M0 by exists [::].
  have hs : stop_at (A2 2%:R 1 2%:R) ((vnorm (vec 2 (e1 F)))^-1 *: vec 2 (e1 F)) (Num.sqrt 2%:R * (1 / 10%:R ^+ 8)) (mf_deg M0) (mf_deg M0).
    rewrite Se d0; split=> //; last by left.
    by case=> [|[|//]] // _; rewrite ex_lb1 ?ler01 // tol_le1.
  apply: (C61_finite eps0 (@ref_ok F) (isT : (0 < 2)%N) (A2_sym _ _ _) B C0 (or_introl erefl) (erefl : size (e1 F) = 2%N) v0 hf hs (a := 1) (b := 3%:R)).
    move=> y; rewrite /qform mulmx1 -!mulmxA -!/(dt _ _) !dt2 !mxE !big_ord_recl !big_ord0 !mxE /=.
    have -> : fintype.lift ord0 ord0 = 1 :> 'I_2 by exact/val_inj.
    have -> : ord0 = 0 :> 'I_2 by exact/val_inj.
    set a := y 0 0; set b := y 1 0; rewrite -subr_ge0 -[X in _ && X]subr_ge0; apply/andP; split.
      by rewrite (_ : _ - _ = (a + b) ^+ 2) ?sqr_ge0 //; ring.
    by rewrite (_ : _ - _ = (a - b) ^+ 2) ?sqr_ge0 //; ring.
  move=> t /andP[t1 _]; exists (1 / t); rewrite /xinv /= gt_eqF //; exact: lt_le_trans ltr01 t1.
have sI : I2^T = 1%:M by rewrite trmx1.
have [hs hl] := id_stop.
apply: (C61_inverse_refuted eps0 (@ref_ok F) (isT : (0 < 2)%N) sI F64 B (erefl : size (e1 F) = 2%N) v0 hf (unitmx1 _ _) (s := 1)).
- by rewrite Se d0.
- by rewrite d0.
- by rewrite Se.
Qed.

(* an integer dtype: the answer is the same whatever the matrix *)
Example C62_dtype_ex (A : 'M[F]_3) : A^T = A -> exists M0,
  [/\ ini 3 (fun t => Fin (t ^+ 2 + 1)) 20 3 OtherDtype = Ok M0,
   (quad A M0 [:: e3 F 0]).1 = Ret [:: Fin ((0 ^+ 2 + 1) * qform 1%:M (vec 3 (e3 F 0)))] &
   (matvec A M0 (e3 F 0)).1 = Ret [:: Fin 0; Fin 0; Fin 0]].
Proof.
move=> sA; have [_ h] := C62_accepts_iff fexp flog feps (sq_array 3) (fcall (fun t : F => Fin (t ^+ 2 + 1))) (no_kw F) 20 3 OtherDtype.
have sq : square_shape (sq_array 3) 3 by exists [::].
have [|M0 E] := h.
  split=> //; first by left.
  by exists 3%N; split=> //; eexists.
exists M0; have [_ _ _ _ [_ [_ Ef]]] := C62_fields sq E.
have hf : applies (mf_fun M0) (fun t => t ^+ 2 + 1) by move=> xs; rewrite Ef.
have hk : o_matvec (sq_array 3) \/ (forall e : dty, KDense <> KObject e) by right.
have [h1 h2] := C62_dtype_refuted eps0 (@ref_ok F) (isT : (0 < 3)%N) sA F64 sq E hk hf (erefl : size (e3 F 0) = 3%N).
by split.
Qed.
End P.
