(* The convolution theorem behind Toeplitz._matvec, and primitive roots in F[i]. *)
From mathcomp Require Import all_ssreflect all_algebra all_field cyclic zify ring.
From mathcomp.real_closed Require Import complex.
From Verif Require Import Base ModelToeplitz.
Set Implicit Arguments.
Unset Strict Implicit.
Unset Printing Implicit Defensive.
Import Order.TTheory GRing.Theory Num.Theory.
Local Open Scope ring_scope.

Section L.
Variable F : rcfType.
Local Notation C := (complex F).
Local Notation rc := (real_complex F).

Lemma prim_root_exists n : (n > 0)%N -> {z : C | n.-primitive_root z}.
Proof.
pose p : {poly C} := 'X^n - 1; have [r Dp] := closed_field_poly_normal p.
move=> n_gt0; apply/sigW; rewrite (monicP _) ?monic_Xn_sub_1 // scale1r in Dp.
have rn1: all n.-unity_root r by apply/allP=> z; rewrite -root_prod_XsubC -Dp.
have sz_r: (n < (size r).+1)%N.
  by rewrite -(size_prod_XsubC r id) -Dp size_Xn_sub_1.
have [|z] := hasP (has_prim_root n_gt0 rn1 _ sz_r); last by exists z.
by rewrite -separable_prod_XsubC -Dp separable_Xn_sub_1 // pnatr_eq0 -lt0n.
Qed.

(* an instance of the parameter `root` of the model *)
Definition root_ref (n : nat) : C := sval (prim_root_exists (ltn0Sn n.-1)).
Lemma root_refP n : (0 < n)%N -> n.-primitive_root (root_ref n).
Proof. by case: n => // n _; rewrite /root_ref; case: (prim_root_exists _). Qed.

Section Root.
Variables (N : nat) (w : C).
Hypothesis N0 : (0 < N)%N.
Hypothesis wP : N.-primitive_root w.

Lemma w_neq0 : w != 0.
Proof.
apply/eqP => w0; have := prim_expr_order wP; rewrite w0 expr0n; case: N N0 => //= m _ /eqP.
by rewrite eq_sym oner_eq0.
Qed.

Lemma w_conj : conjc w = w^-1.
Proof.
have nw : `|w| = 1.
  apply/eqP; rewrite -(@pexpr_eq1 _ `|w| N) // -normrX (prim_expr_order wP) normr1 eqxx //.
have H : w * conjc w = 1.
  have := normCK w; rewrite nw expr1n => h; rewrite [RHS]h; congr (_ * _).
by rewrite -[LHS]mul1r -(mulVf w_neq0) -mulrA H mulr1.
Qed.

Lemma w_orth (a b : nat) :
  \sum_(k < N) w ^+ (a * k) * w^-1 ^+ (b * k) = if a == b %[mod N] then N%:R else 0.
Proof.
pose u := w ^+ a / w ^+ b.
have e k : w ^+ (a * k) * w^-1 ^+ (b * k) = u ^+ k by rewrite /u exprMn !exprM exprVn.
rewrite (eq_bigr _ (fun (k : 'I_N) _ => e k)).
have uE : (u == 1) = (a == b %[mod N]).
  by rewrite -(eq_prim_root_expr wP) /u -subr_eq0 -(divff (expf_neq0 b w_neq0)) -mulrBl mulf_eq0 invr_eq0
    (negPf (expf_neq0 b w_neq0)) orbF subr_eq0.
rewrite -uE; case: eqP => [->|/eqP ne1].
  by rewrite (eq_bigr (fun=> 1)) ?sumr_const ?card_ord // => k _; rewrite expr1n.
apply: (mulfI (x := u - 1)); first by rewrite subr_eq0.
have uN : u ^+ N = 1 by rewrite /u exprMn exprVn -!exprM mulnC [(b * N)%N]mulnC !exprM (prim_expr_order wP) !expr1n divr1.
by rewrite -subrX1 uN subrr mulr0.
Qed.

(* every entry of ifft(real(fft(d)) * fft(z)) *)
Lemma conv_entry (d z : seq F) (j : nat) :
  (N%:R^-1 : C) * (\sum_(k < N) rc (complex.Re (\sum_(l < N) rc d`_l * w ^+ (l * k))) *
              (\sum_(m < N) rc z`_m * w ^+ (m * k)) * w^-1 ^+ (j * k)) =
  rc (\sum_(m < N) z`_m * (2%:R^-1 * \sum_(l < N) d`_l * (((l + m)%N == j %[mod N])%:R + (m == (l + j)%N %[mod N])%:R))).
Proof.
have NF : (N%:R : C) != 0 by rewrite pnatr_eq0 -lt0n.
have conjE k : conjc (\sum_(l < N) rc d`_l * w ^+ (l * k)) = \sum_(l < N) rc d`_l * w^-1 ^+ (l * k).
  rewrite rmorph_sum /=; apply: eq_bigr => l _; rewrite rmorphM rmorphX /= -w_conj.
  by congr (_ * _); apply: conjc_real.
pose T k (l m : 'I_N) : C := rc d`_l * rc z`_m * (w ^+ ((l + m) * k) * w^-1 ^+ (j * k) + w ^+ (m * k) * w^-1 ^+ ((l + j) * k)).
have termE (k : 'I_N) :
  rc (complex.Re (\sum_(l < N) rc d`_l * w ^+ (l * k))) * (\sum_(m < N) rc z`_m * w ^+ (m * k)) * w^-1 ^+ (j * k) =
  2%:R^-1 * \sum_(m < N) \sum_(l < N) T k l m.
  rewrite ReJ_add conjE -big_split /=.
  set A := \sum_(i < N) (_ + _); set B := \sum_(m < N) _; set e := w^-1 ^+ (j * k).
  have -> : A / 2%:R * B * e = 2%:R^-1 * (e * (B * A)) by rewrite -!mulrA mulrCA; ring.
  congr (_ * _); rewrite /A /B big_distrlr /= mulr_sumr; apply: eq_bigr => m _; rewrite mulr_sumr; apply: eq_bigr => l _.
  rewrite /T !mulnDl !exprD -/e.
  move: (rc _) (rc _) (w ^+ _) (w ^+ _) (w^-1 ^+ _) => a1 a2 a3 a4 a5; ring.
rewrite (eq_bigr _ (fun (k : 'I_N) _ => termE k)) -mulr_sumr exchange_big /=.
rewrite rmorph_sum /= !mulr_sumr; apply: eq_bigr => m _.
rewrite exchange_big /= !rmorphM rmorph_sum /= fmorphV rmorph_nat !mulr_sumr; apply: eq_bigr => l _.
rewrite /T -mulr_sumr big_split /= !w_orth rmorphM rmorphD !rmorph_nat.
have e (b : bool) : (if b then N%:R else 0 : C) = b%:R * N%:R by case: b; rewrite ?mul1r ?mul0r.
rewrite !e -mulrDl; set v := _%:R + _%:R.
have alg (a1 a2 a3 a4 a5 a6 : C) : a1 * (a2 * (a3 * a4 * (a5 * a6))) = a4 * (a2 * (a3 * a5)) * (a1 * a6) by ring.
by rewrite [LHS]alg (mulVf NF) mulr1.
Qed.
End Root.
End L.
