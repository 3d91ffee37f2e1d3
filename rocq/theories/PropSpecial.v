(* Properties of special.py: C74-C77. *)
From Coq Require Import String.
From mathcomp Require Import all_ssreflect all_algebra zify ring.
From mathcomp Require Import polyrcf.
From Verif Require Import Base ModelTyping ModelSpecial.
Set Implicit Arguments.
Unset Strict Implicit.
Unset Printing Implicit Defensive.
Import Order.TTheory GRing.Theory Num.Theory.
Local Open Scope string_scope.
Local Open Scope ring_scope.

Section Central.
Variable F : rcfType.
Implicit Types (x y : F) (i m q : nat).

Lemma n0 (k : nat) : k.+1%:R != 0 :> F. Proof. by rewrite pnatr_eq0. Qed.

(* central binomials over powers of four *)
Definition cb i : F := ('C(i.*2, i))%:R / 4%:R ^+ i.

Lemma cbS i : 2%:R * i.+1%:R * cb i.+1 = (2%:R * i%:R + 1) * cb i.
Proof.
have h1 : (i.+1 * 'C(i.*2.+1, i) = i.*2.+1 * 'C(i.*2, i))%N.
  by have := mul_bin_down i.*2.+1 i; rewrite /= (_ : (i.*2.+1 - i)%N = i.+1) //; lia.
have h2 : (i.+1 * 'C(i.+1.*2, i.+1) = i.+1.*2 * 'C(i.*2.+1, i))%N.
  by have := mul_bin_diag i.+1.*2 i; rewrite /= => <-.
have h : (i.+1 * 'C(i.+1.*2, i.+1) = 2 * i.*2.+1 * 'C(i.*2, i))%N.
  by rewrite h2 -(mul2n i.+1) -mulnA h1 mulnA.
have hF : i.+1%:R * ('C(i.+1.*2, i.+1))%:R = 2%:R * (2%:R * i%:R + 1) * ('C(i.*2, i))%:R :> F.
  by rewrite -natrM h !natrM -(addn1 i.*2) natrD -[in i.*2%:R](mul2n i) natrM.
rewrite /cb exprS -mulrA (mulrA i.+1%:R) hF.
have p4 : 4%:R ^+ i != 0 :> F by rewrite expf_neq0 // n0.
have f4 : 4%:R != 0 :> F by exact: n0.
move: ('C(i.*2, i))%:R (4%:R ^+ i) p4 (i%:R) => a b b0 c; field; rewrite ?b0 ?pnatr_eq0 ?andbT //.
Qed.

Lemma cb_ge0 i : 0 <= cb i.
Proof. by rewrite divr_ge0 ?exprn_ge0 ?ler0n. Qed.

(* the convolution of the sequence with itself is constantly 1 *)
Lemma cb_conv m : \sum_(i < m.+1) cb i * cb (m - i) = 1.
Proof.
have sym k : 2%:R * (\sum_(i < k.+1) i%:R * (cb i * cb (k - i))) = k%:R * \sum_(i < k.+1) cb i * cb (k - i).
  have -> : 2%:R * (\sum_(i < k.+1) i%:R * (cb i * cb (k - i))) =
    \sum_(i < k.+1) i%:R * (cb i * cb (k - i)) + \sum_(i < k.+1) (k - i)%:R * (cb i * cb (k - i)).
    rewrite mulr_natl mulr2n; congr (_ + _); rewrite (reindex_inj rev_ord_inj) /=; apply: eq_bigr => i _.
    have hi := ltn_ord i; rewrite (_ : (k.+1 - i.+1)%N = (k - i)%N) //.
    by rewrite subKn -1?ltnS // (mulrC (cb i)).
  rewrite -big_split mulr_sumr /=; apply: eq_bigr => i _; rewrite -mulrDl -natrD.
  by rewrite subnKC // -ltnS.
elim: m => [|m IH]; first by rewrite big_ord1 /cb /= expr0 divr1 mulr1.
apply: (mulfI (n0 m)); rewrite mulr1 -sym big_ord_recl mul0r add0r mulr_sumr.
transitivity (\sum_(i < m.+1) (2%:R * (i%:R * (cb i * cb (m - i))) + cb i * cb (m - i))).
  apply: eq_bigr => i _; rewrite lift0 subSS.
  have := cbS i; move: (cb i.+1) (cb i) (cb (m - i)) => a b c h.
  by rewrite mulrA mulrA h; ring.
by rewrite big_split /= -mulr_sumr sym IH mulr1 -[in RHS]addn1 natrD.
Qed.

Definition Sq q y : F := \sum_(i < q.+1) cb i * y ^+ i.

Lemma geo y k : (1 - y) * (\sum_(i < k) y ^+ i) = 1 - y ^+ k.
Proof.
elim: k => [|k IH]; first by rewrite big_ord0 mulr0 expr0 subrr.
by rewrite big_ord_recr /= mulrDr IH exprS; move: (y ^+ k) => a; ring.
Qed.

(* coefficients of Sq ^ 2 *)
Lemma Sq_sq q y : Sq q y ^+ 2 = \sum_(i < q.+1) \sum_(j < q.+1) cb i * cb j * y ^+ (i + j).
Proof.
rewrite expr2 /Sq big_distrlr /=; apply: eq_bigr => i _; apply: eq_bigr => j _.
by rewrite exprD; move: (y ^+ i) (y ^+ j) => a b; ring.
Qed.

Lemma conv_pow m y : y ^+ m = \sum_(i < m.+1) cb i * cb (m - i) * y ^+ (i + (m - i)).
Proof.
rewrite -[LHS]mul1r -(cb_conv m) mulr_suml; apply: eq_bigr => i _.
by rewrite subnKC // -ltnS.
Qed.

Lemma pow_double N y : \sum_(m < N.+1) y ^+ m = \sum_(i < N.+1) \sum_(j < N.+1 | (i + j <= N)%N) cb i * cb j * y ^+ (i + j).
Proof.
rewrite (eq_bigr (fun m : 'I_N.+1 => \sum_(i < N.+1 | (i <= m)%N) cb i * cb (m - i) * y ^+ (i + (m - i)))); last first.
  move=> m _; rewrite {1}conv_pow (big_ord_widen_cond N.+1 xpredT (fun i => cb i * cb (m - i) * y ^+ (i + (m - i)))) //.
rewrite (exchange_big_dep xpredT) //=; apply: eq_bigr => i _.
transitivity (\sum_(i <= m < N.+1) cb i * cb (m - i) * y ^+ (i + (m - i))).
  by rewrite big_geq_mkord.
rewrite -{1}(add0n (val i)) big_addn big_mkord.
rewrite (big_ord_widen_cond N.+1 xpredT (fun j => cb i * cb (j + i - i) * y ^+ (i + (j + i - i)))) ?leq_subr //.
apply: eq_big => j; last by rewrite addnK.
by rewrite /= ltn_subRL ltnS.
Qed.

Lemma Sq_low q y : 0 <= y -> \sum_(m < q.+1) y ^+ m <= Sq q y ^+ 2.
Proof.
move=> y0; rewrite Sq_sq pow_double.
apply: ler_sum => i _; rewrite [X in _ <= X](bigID (fun j : 'I_q.+1 => (i + j <= q)%N)) /= ler_addl.
by apply: sumr_ge0 => j _; apply: mulr_ge0; rewrite ?exprn_ge0 //; apply: mulr_ge0; exact: cb_ge0.
Qed.

Lemma Sq_up q y : 0 <= y -> Sq q y ^+ 2 <= \sum_(m < q.*2.+1) y ^+ m.
Proof.
move=> y0; rewrite Sq_sq pow_double.
have pos i j : 0 <= cb i * cb j * y ^+ (i + j) by apply: mulr_ge0; rewrite ?exprn_ge0 //; apply: mulr_ge0; exact: cb_ge0.
have w : (q.+1 <= q.*2.+1)%N by lia.
rewrite (big_ord_widen_cond _ xpredT (fun i => \sum_(j < q.+1) cb i * cb j * y ^+ (i + j)) w) /=.
rewrite [X in _ <= X](bigID (fun i : 'I_q.*2.+1 => (i < q.+1)%N)) /=.
rewrite -[X in X <= _]addr0 ler_add //; last by apply: sumr_ge0 => i _; apply: sumr_ge0.
apply: ler_sum => i hi; rewrite (big_ord_widen_cond _ xpredT (fun j => cb i * cb j * y ^+ (i + j)) w) /=.
rewrite [X in _ <= X](bigID (fun j : 'I_q.*2.+1 => (j < q.+1)%N)) /= -[X in X <= _]addr0 ler_add //; last by apply: sumr_ge0.
rewrite le_eqVlt; apply/orP; left; apply/eqP; apply: eq_bigl => j; lia.
Qed.
End Central.

Section Main.
Variable F : rcfType.
Implicit Types (x y a b c : F) (q : int) (k : nat).

(* the partial sum as a polynomial *)
Definition Pq k : {poly F} := \sum_(i < k.+1) cb F i *: ('X * (1 - 'X ^+ 2) ^+ i).

Lemma Pq_val k x : (Pq k).[x] = x * Sq k (1 - x ^+ 2).
Proof.
rewrite /Pq /Sq horner_sum mulr_sumr; apply: eq_bigr => i _.
by rewrite hornerZ hornerM hornerX horner_exp hornerD hornerN hornerXn hornerC mulrCA.
Qed.

Lemma Pq_deriv k : (Pq k)^`() = ((2%:R * k%:R + 1) * cb F k) *: (1 - 'X ^+ 2) ^+ k.
Proof.
elim: k => [|k IH]; rewrite /Pq.
  by rewrite big_ord1 expr0 mulr1 derivZ derivX mulr0 add0r mul1r.
rewrite big_ord_recr derivD -/(Pq k) IH /= derivZ derivM derivX mul1r deriv_exp derivB derivXn.
rewrite (_ : (1 : {poly F})^`() = 0) ?sub0r; last by rewrite -polyC1 derivC.
rewrite -cbS; move: (cb F k.+1) => c.
rewrite -!mul_polyC !polyCM polyCD polyCM !polyCMn polyC1 [k.+1.-1]/= [2.-1]/= expr1 (exprS (1 - 'X ^+ 2)).
move: c%:P ('X : {poly F}) => d u.
move: ((1 - u ^+ 2) ^+ k) => z.
by rewrite -(mulr_natl (_ * z)) -(mulr_natl u) expr2; move: (k.+1%:R : {poly F}) => K; ring.
Qed.

Lemma fclip_id x : -1 <= x -> x <= 1 -> fclip x (-1) 1 = x.
Proof. by move=> h1 h2; rewrite /fclip (max_idPl h1) (min_idPl h2). Qed.

Lemma fclip_ge x lo hi : lo <= hi -> lo <= fclip x lo hi <= hi.
Proof. by move=> h; rewrite /fclip le_minr le_minl le_maxr lexx orbT h /= lexx orbT. Qed.

Lemma fclip_homo lo hi x y : x <= y -> fclip x lo hi <= fclip y lo hi.
Proof. by move=> h; rewrite /fclip le_minr !le_minl !le_maxl !le_maxr h !lexx !orbT. Qed.

Lemma fclip_lo lo hi x : lo <= hi -> x <= lo -> fclip x lo hi = lo.
Proof. by move=> h1 h2; rewrite /fclip (max_idPr h2) (min_idPl h1). Qed.

Lemma fclip_hi lo hi x : lo <= hi -> hi <= x -> fclip x lo hi = hi.
Proof. by move=> h1 h2; rewrite /fclip (max_idPl (le_trans h1 h2)) (min_idPr h2). Qed.

Lemma m11 : -1 <= 1 :> F. Proof. by rewrite ler_oppl -subr_ge0 opprK addr_ge0 ?ler01. Qed.

Lemma fclip_opp x : fclip (- x) (-1) 1 = - fclip x (-1) 1.
Proof.
have [h|h] := lerP x (-1).
  by rewrite (fclip_lo m11 h) fclip_hi ?opprK ?m11 // ler_oppr.
have [h'|h'] := lerP x 1; first by rewrite !fclip_id ?ler_opp2 ?(ltW h) // ler_oppl ltW.
by rewrite (fclip_hi m11 (ltW h')) fclip_lo ?m11 // ler_opp2 ltW.
Qed.

(* ---- C74 ------------------------------------------------------------------------ *)
Lemma fold_cb i : foldl *%R 1 [seq (2%:R * j.+1%:R - 1) / (2%:R * j.+1%:R) | j <- iota 0 i] = cb F i.
Proof.
elim: i => [|i IH]; first by rewrite /= /cb expr0 divr1.
have -> : iota 0 i.+1 = cat (iota 0 i) [:: i] by rewrite -(addn1 i) iotaD.
rewrite map_cat foldl_cat IH /=.
have := cbS F i; move: (cb F i) (cb F i.+1) => u v h.
have K : 2%:R * i.+1%:R != 0 :> F by rewrite mulf_neq0 ?n0.
apply: (mulfI K); rewrite h mulrCA (mulrC (2%:R * _)) divfK // mulrC; congr (_ * _).
by rewrite -(addn1 i) natrD; move: (i%:R : F) => z; ring.
Qed.

Lemma ss_J_nth k i : (i <= k)%N -> (ss_J F k%:Z)`_i = cb F i.
Proof.
rewrite /ss_J /arange; case: i => [|i] hi; first by rewrite /= /cb expr0 divr1.
have k0 : (0 < k%:Z) by rewrite ltz_nat; lia.
rewrite k0 /= nth_scanl ?size_map ?size_iota // -map_take take_iota (_ : minn i.+1 k = i.+1); last by lia.
exact: fold_cb.
Qed.

Lemma softsign1E k x : softsign1 k%:Z x = fclip x (-1) 1 * Sq k (1 - fclip x (-1) 1 ^+ 2).
Proof.
rewrite /softsign1; set z := fclip x _ _; rewrite /Sq mulr_sumr.
have sz : size (ss_J F k%:Z) = k.+1 by rewrite /ss_J /= size_scanl size_map /arange; case: k => //= k'; rewrite size_iota.
rewrite (big_nth (0%N, 0)) size_zip sz /arange (_ : 0 < k%:Z + 1) ?size_iota; last by lia.
rewrite (_ : `|(k%:Z + 1)%R|%N = k.+1) ?minnn ?big_mkord; last by lia.
apply: eq_bigr => i _; rewrite nth_zip ?size_iota ?sz // nth_iota // add0n ss_J_nth -1?ltnS //.
by rewrite mulrAC mulrA.
Qed.

Lemma softsign_neg q x : q < 0 -> softsign1 q x = 0.
Proof. by move=> h; rewrite /softsign1 /arange (_ : (0 < q + 1) = false) ?zip_nil ?big_nil //; lia. Qed.

(* the entry of the result is a function of the entry of the argument *)
Theorem C74_elementwise q (xs : seq F) i : size (softsign q xs) = size xs /\
  ((i < size xs)%N -> (softsign q xs)`_i = (softsign q [:: xs`_i])`_0).
Proof. by rewrite size_map; split=> // h; rewrite (nth_map 0). Qed.

(* the documented sum, with central binomial coefficients *)
Theorem C74_formula k x : -1 <= x <= 1 ->
  softsign k%:Z [:: x] = [:: \sum_(i < k.+1) ('C(2 * i, i))%:R / 4%:R ^+ i * (x * (1 - x ^+ 2) ^+ i)].
Proof.
case/andP=> h1 h2; rewrite /softsign /= softsign1E fclip_id // /Sq mulr_sumr; congr [:: _].
by apply: eq_bigr => i _; rewrite mul2n mulrCA.
Qed.

Lemma sq_le1 x : -1 <= x -> x <= 1 -> x ^+ 2 <= 1.
Proof.
move=> h1 h2; rewrite -subr_ge0 (_ : 1 - x ^+ 2 = (1 - x) * (x - -1)); last by ring.
by rewrite mulr_ge0 ?subr_ge0.
Qed.

Lemma c_bounds x : 0 <= 1 - fclip x (-1) 1 ^+ 2 <= 1.
Proof.
have /andP[h1 h2] := fclip_ge x m11; move: (fclip x _ _) h1 h2 => z h1 h2.
by rewrite subr_ge0 ler_subl_addl ler_addr sqr_ge0 andbT sq_le1.
Qed.

(* odd; values in [-1, 1]; non-decreasing; arguments outside [-1, 1] are clamped *)
Theorem C74_softsign q x y :
  [/\ softsign1 q (- x) = - softsign1 q x, `|softsign1 q x| <= 1,
      x <= y -> softsign1 q x <= softsign1 q y,
      1 <= x -> softsign1 q x = (if 0 <= q then 1 else 0) &
      softsign1 q (0 : F) = 0].
Proof.
have [q0|q0] := ltrP q 0.
  by rewrite !softsign_neg // oppr0 normr0 ler01 lexx; split.
have -> : q = `|q|%N%:Z by rewrite gez0_abs.
move: `|q|%N => k {q q0}.
have B (z : F) : `|softsign1 k%:Z z| <= 1.
  rewrite softsign1E; have /andP[h1 h2] := c_bounds z.
  rewrite -(@ler_pexpn2r _ 2) // ?nnegrE ?ler01 // expr1n real_normK ?num_real // exprMn.
  have : fclip z (-1) 1 ^+ 2 = 1 - (1 - fclip z (-1) 1 ^+ 2) by rewrite opprB addrC subrK.
  move: (1 - fclip z (-1) 1 ^+ 2) h1 h2 => w h1 h2 ->; rewrite (le_trans (ler_wpmul2l _ (Sq_up k h1))) ?subr_ge0 //.
  by rewrite geo ler_subl_addl ler_addr exprn_ge0.
split.
- by rewrite !softsign1E fclip_opp sqrrN mulNr.
- exact: B.
- move=> xy; rewrite !softsign1E -!Pq_val.
  have D : {in `]-1, 1[, forall u : F, (Pq k)^`().[u] >= 0}.
    move=> u; rewrite in_itv /= => /andP[u1 u2]; rewrite Pq_deriv hornerZ horner_exp hornerD hornerN hornerXn hornerC.
    apply: mulr_ge0; first by rewrite mulr_ge0 ?cb_ge0 // addr_ge0 ?ler01 // mulr_ge0 ?ler0n.
    by rewrite exprn_ge0 // subr_ge0 sq_le1 ?ltW.
  by apply: (ler_hornerW D); rewrite ?in_itv /= ?fclip_ge ?m11 ?fclip_homo.
- move=> x1; rewrite softsign1E fclip_hi ?m11 // expr1n subrr mul1r /Sq big_ord_recl expr0 mulr1.
  by rewrite big1 => [|i _]; rewrite ?expr0n ?mulr0 // /cb /= expr0 divr1 addr0.
- by rewrite softsign1E fclip_id ?ler01 ?oppr_le0 ?ler01 // mul0r.
Qed.

(* non-decreasing in q for x >= 0, and close to the sign function: the square is
   at least 1 - (1 - x^2)^(q+1) *)
Theorem C74_converges k x : 0 <= x <= 1 ->
  [/\ 0 <= softsign1 k%:Z x, softsign1 k%:Z x <= softsign1 k.+1%:Z x &
      1 - (1 - x ^+ 2) ^+ k.+1 <= softsign1 k%:Z x ^+ 2].
Proof.
case/andP=> x0 x1; have xm : -1 <= x by apply: le_trans x0; rewrite oppr_le0 ler01.
rewrite !softsign1E fclip_id // /Sq.
have y0 : 0 <= 1 - x ^+ 2 by have /andP[] := c_bounds x; rewrite fclip_id.
have t i : 0 <= cb F i * (1 - x ^+ 2) ^+ i by rewrite mulr_ge0 ?cb_ge0 ?exprn_ge0.
split.
- by rewrite mulr_ge0 // sumr_ge0.
- by rewrite [X in _ <= _ * X]big_ord_recr ler_wpmul2l // ler_addl.
rewrite exprMn -geo opprB addrC subrK; apply: ler_wpmul2l; first exact: sqr_ge0.
exact: Sq_low.
Qed.

(* ---- C75 ------------------------------------------------------------------------- *)
Definition cubic (y : F) : F := 3%:R * y ^+ 2 - 2%:R * y ^+ 3.

Lemma cubic_homo y z : 0 <= y -> y <= z -> z <= 1 -> cubic y <= cubic z.
Proof.
move=> y0 yz z1; rewrite -subr_ge0 /cubic.
have -> : 3%:R * z ^+ 2 - 2%:R * z ^+ 3 - (3%:R * y ^+ 2 - 2%:R * y ^+ 3) =
  (z - y) * (2%:R * z * (1 - z) + 2%:R * y * (1 - y) + z * (1 - y) + y * (1 - z)) :> F by ring.
have z0 := le_trans y0 yz; have y1 := le_trans yz z1.
by apply: mulr_ge0; rewrite ?subr_ge0 // !addr_ge0 // !mulr_ge0 ?ler0n ?subr_ge0.
Qed.

Lemma cubic0 : cubic 0 = 0. Proof. by rewrite /cubic !expr0n !mulr0 subr0. Qed.
Lemma cubic1 : cubic 1 = 1. Proof. by rewrite /cubic !expr1n; ring. Qed.
Lemma l01 : 0 <= 1 :> F. Proof. exact: ler01. Qed.

(* for a < b: 0 up to a, 1 from b on, in between the cubic of (x - a) / (b - a);
   within [0, 1]; non-decreasing; point-symmetric *)
Theorem C75_smoothstep a b x y : a < b ->
  [/\ (x <= a -> smoothstep1 a b x = 0) /\ (b <= x -> smoothstep1 a b x = 1),
      a <= x <= b -> smoothstep1 a b x = let y := (x - a) / (b - a) in 3%:R * y ^+ 2 - 2%:R * y ^+ 3,
      0 <= smoothstep1 a b x <= 1,
      x <= y -> smoothstep1 a b x <= smoothstep1 a b y &
      smoothstep1 a b (a + b - x) = 1 - smoothstep1 a b x].
Proof.
move=> ab; have d0 : 0 < b - a by rewrite subr_gt0.
have E z : smoothstep1 a b z = cubic (fclip ((z - a) / (b - a)) 0 1).
  by rewrite /smoothstep1 (lt_eqF ab).
have lo z : z <= a -> (z - a) / (b - a) <= 0 by move=> h; rewrite ler_pdivr_mulr // mul0r subr_le0.
have hi z : b <= z -> 1 <= (z - a) / (b - a) by move=> h; rewrite ler_pdivl_mulr // mul1r ler_add2r.
have mid z : a <= z <= b -> 0 <= (z - a) / (b - a) <= 1.
  by case/andP=> h1 h2; rewrite divr_ge0 ?subr_ge0 ?(ltW ab) //= ler_pdivr_mulr // mul1r ler_add2r.
have idc z : 0 <= z <= 1 -> fclip z 0 1 = z by case/andP=> h1 h2; rewrite /fclip (max_idPl h1) (min_idPl h2).
have mono z w : z <= w -> smoothstep1 a b z <= smoothstep1 a b w.
  move=> zw; rewrite !E; have /andP[h1 h2] := fclip_ge ((z - a) / (b - a)) l01.
  have /andP[h3 h4] := fclip_ge ((w - a) / (b - a)) l01.
  by apply: cubic_homo => //; apply: fclip_homo; rewrite ler_wpmul2r ?invr_ge0 ?(ltW d0) // ler_add2r.
split=> //.
- by split=> h; rewrite E; [rewrite fclip_lo ?lo ?l01 ?cubic0|rewrite fclip_hi ?hi ?l01 ?cubic1].
- by move=> h; rewrite E idc ?mid.
- rewrite E; have /andP[h1 h2] := fclip_ge ((x - a) / (b - a)) l01.
  by have := cubic_homo h1 h2 (lexx 1); have := cubic_homo (lexx 0) h1 h2; rewrite cubic0 cubic1 => -> ->.
- exact: mono.
- have [h|h] := lerP x a.
    by rewrite !E fclip_hi ?l01 ?fclip_lo ?l01 ?lo ?cubic0 ?cubic1 ?subr0 // hi // ler_subr_addl ler_add2r.
  have [h'|h'] := lerP b x.
    rewrite !E fclip_lo ?l01 ?fclip_hi ?l01 ?hi ?cubic0 ?cubic1 ?subrr // lo // ler_subl_addr ler_add2l //.
  have m1 : a <= x <= b by rewrite !ltW.
  have m2 : a <= a + b - x <= b.
    by rewrite ler_subr_addl addrC ler_add2l (ltW h') /= ler_subl_addl ler_add2r (ltW h).
  rewrite !E !idc ?mid //.
  have -> : (a + b - x - a) / (b - a) = 1 - (x - a) / (b - a).
    by field; rewrite lt0r_neq0.
  by rewrite /cubic; move: ((x - a) / (b - a)) => z; ring.
Qed.

(* even degrees are rejected; the degree is otherwise ignored *)
Theorem C75_degree a b (deg : int) (xs : seq F) :
  match smoothstep a b deg with
  | Ok f => (deg %% 2)%Z = 1 /\ f xs = [seq smoothstep1 a b x | x <- xs]
  | Err e => (deg %% 2)%Z = 0 /\ e = AssertionError
  end.
Proof. by rewrite /smoothstep; case: eqP => [//|h]; split=> //; have := modz_ge0 deg; have := ltz_pmod deg; lia. Qed.

(* for a = b the transition is not a jump: it has width 1 *)
Theorem C75_equal_ends a x : smoothstep1 a a x = smoothstep1 a (a + 1) x /\ smoothstep1 a a (a + 1 / 2%:R) = 1 / 2%:R.
Proof.
have E z : smoothstep1 a a z = smoothstep1 a (a + 1) z.
  have -> : smoothstep1 a (a + 1) z = let y := fclip ((z - a) / (a + 1 - a)) 0 1 in 3%:R * y ^+ 2 - 2%:R * y ^+ 3.
    by rewrite /smoothstep1 (_ : a != a + 1) // -subr_eq0 opprD addNKr oppr_eq0 oner_neq0.
  by rewrite /smoothstep1 eqxx /= (addrC a) addrK.
split=> //; rewrite /smoothstep1 eqxx /= (addrC a) addrK divr1.
have h1 : (0 : F) <= 1 / 2%:R by rewrite divr_ge0 ?ler01 ?ler0n.
have h2 : 1 / 2%:R <= (1 : F) by rewrite ler_pdivr_mulr ?ltr0n // mul1r ler1n.
rewrite /fclip (max_idPl h1) (min_idPl h2).
by field.
Qed.

(* ---- C76 ------------------------------------------------------------------------- *)
Theorem C76_step c x (nn : bool) :
  (step1 c nn x = 0 \/ step1 c nn x = 1) /\
  (step1 c nn x = 0 <-> (if nn then `|x| else x) < c).
Proof.
rewrite /step1; case: ltP => _; split; try by [left|right]; split=> // h.
by move/eqP: h; rewrite oner_eq0.
Qed.

(* summed over a spectrum, numrank counts the values of modulus at least the threshold *)
Theorem C76_numrank (fexp flog : F -> F) (feps : F) (kw : fkw F) (ews : seq F) :
  exists f, param_callable fexp flog feps (XStr "numrank") kw = Ok f /\
    f ews = [seq Fin (~~ (`|x| < odflt (1 / 10%:R ^+ 6) (kw_threshold kw)))%:R | x <- ews] /\
    foldr (@xadd F) (Fin 0) (f ews) = Fin (count (fun x => odflt (1 / 10%:R ^+ 6) (kw_threshold kw) <= `|x|) ews)%:R.
Proof.
eexists; split; first by []; set c := odflt _ _; split.
  by apply: eq_map => x; rewrite /step1; case: ltP.
elim: ews => //= x s ->; rewrite /= /step1 natrD leNgt.
by case: ltP.
Qed.

(* ---- C77 ------------------------------------------------------------------------- *)
Section Names.
Variables (fexp flog : F -> F) (feps : F).
Local Notation pc := (param_callable fexp flog feps).

Theorem C77_builtin kw xs :
  [/\ exists f, pc (XStr "identity") kw = Ok f /\ f xs = [seq Fin x | x <- xs],
      exists f, pc (XStr "abs") kw = Ok f /\ f xs = [seq Fin `|x| | x <- xs],
      exists f, pc (XStr "sqrt") kw = Ok f /\ f xs = [seq (if x < 0 then NaN else Fin (Num.sqrt x)) | x <- xs] &
      exists f, pc (XStr "inv") kw = Ok f /\ f xs = [seq (if x == 0 then PInf else Fin x^-1) | x <- xs]] /\
  [/\ exists f, pc (XStr "exp") kw = Ok f /\ f xs = [seq Fin (fexp (odflt 1 (kw_t kw) * x)) | x <- xs],
      exists f, pc (XStr "smoothstep") kw = Ok f /\
         f xs = [seq Fin (smoothstep1 (odflt 0 (kw_a kw)) (odflt 1 (kw_b kw)) x) | x <- xs],
      pc XNone kw = pc (XStr "identity") kw,
      (forall f, pc (XCall f) kw = Ok f) &
      0 < feps -> exists f, pc (XStr "log") kw = Ok f /\ f xs = [seq Fin (flog (Num.max x feps)) | x <- xs]].
Proof.
split; split=> //; try by eexists; split.
- eexists; split; first by []; apply: eq_map => x /=; case: eqP => [_|_]; last by rewrite mul1r.
  by rewrite /xinf_of_sign oner_eq0 ltr01.
- by eexists; split; [by []|rewrite /=; rewrite -map_comp; apply: eq_map].
- by move=> e0; eexists; split; first by []; apply: eq_map => x; rewrite /nplog lt_maxr e0 orbT.
Qed.

(* every other name is rejected, 'softsign' included, whatever the keywords *)
Theorem C77_softsign_rejected_refuted kw : pc (XStr "softsign") kw = Err AssertionError.
Proof. by []. Qed.

Theorem C77_names (s : string) kw :
  let names := [:: "identity"; "abs"; "sqrt"; "log"; "inv"; "exp"; "smoothstep"; "numrank"] in
  (List.In s names -> exists f, pc (XStr s) kw = Ok f) /\
  (~ List.In s names -> pc (XStr s) kw = Err AssertionError) /\
  pc XOther kw = Err ValueError.
Proof.
split; last split=> // h.
  by do 8 (case=> [<-|]; first by eexists); case.
rewrite /param_callable (_ : mem_str s BUILTIN = false) //; apply/negbTE/negP => h'; apply: h; move: h'.
rewrite /mem_str /BUILTIN /=; do !case/orP; try (by move/String.eqb_eq => ->; rewrite /=; tauto); by [].
Qed.

End Names.

(* ---- concrete cases ----------------------------------------------------------------- *)
Lemma half01 : 0 <= (1 / 2%:R : F) <= 1.
Proof. by rewrite divr_ge0 ?ler01 ?ler0n //= ler_pdivr_mulr ?ltr0n // mul1r ler1n. Qed.

Example C74_ex : softsign 1%:Z [:: 1 / 2%:R; - (1 / 2%:R); 2%:R : F] = [:: 11%:R / 16%:R; - (11%:R / 16%:R); 1].
Proof.
have /andP[h0 h1] := half01.
have E : softsign1 1%:Z (1 / 2%:R : F) = 11%:R / 16%:R.
  rewrite softsign1E fclip_id // ?(le_trans _ h0) ?oppr_le0 ?ler01 // /Sq big_ord_recr big_ord1 /= /cb /= expr0 expr1.
  by rewrite (_ : 'C(1.*2, 1) = 2%N) // bin0 !expr0 !expr1; field.
have [o _ _ _ _] := C74_softsign 1%:Z (1 / 2%:R) 0; have [_ _ _ h _] := C74_softsign 1%:Z 2%:R 0.
by rewrite /softsign /= o E h // ler1n.
Qed.

Example C75_ex : smoothstep1 0 1 (1 / 2%:R : F) = 1 / 2%:R /\ smoothstep1 2%:R 4%:R (1 : F) = 0 /\ (5 %% 2)%Z = 1.
Proof.
have [_ h _ _ _] := @C75_smoothstep 0 1 (1 / 2%:R) 0 ltr01.
have [|[h' _] _ _ _ _] := @C75_smoothstep 2%:R 4%:R 1 0; first by rewrite ltr_nat.
by rewrite h ?half01 // h' ?ler1n //; split=> //=; field.
Qed.

Example C76_ex (fexp flog : F -> F) (feps : F) : exists f,
  param_callable fexp flog feps (XStr "numrank") (FKw None None None None (Some 1)) = Ok f /\
  foldr (@xadd F) (Fin 0) (f [:: 3%:R; -2%:R; 0; 1 / 2%:R]) = Fin 2%:R.
Proof.
have [f [h1 [_ h2]]] := C76_numrank fexp flog feps (FKw None None None None (Some 1)) [:: 3%:R; -2%:R; 0; 1 / 2%:R].
exists f; split=> //; rewrite h2 /= normrN !normr_nat !ler1n normr0 ler10.
have /andP[h0 _] := half01; rewrite (ger0_norm h0) ler_pdivl_mulr ?ltr0n // mul1r.
by rewrite lern1.
Qed.
End Main.

Print Assumptions C74_elementwise.
Print Assumptions C74_formula.
Print Assumptions C74_softsign.
Print Assumptions C74_converges.
Print Assumptions C75_smoothstep.
Print Assumptions C75_degree.
Print Assumptions C75_equal_ends.
Print Assumptions C76_step.
Print Assumptions C76_numrank.
Print Assumptions C77_builtin.
Print Assumptions C77_softsign_rejected_refuted.
Print Assumptions C77_names.
