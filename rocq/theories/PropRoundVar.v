(* C109: the variance and the margin of error in rounded arithmetic: how far from the exact ones. *)
From mathcomp Require Import all_ssreflect all_algebra zify ring.
From Verif Require Import Base ModelStats LemStats ModelEstimators ModelRandom ModelTrace ModelRound PropRound
  ModelRoundHutch PropRoundHutch.
From Verif Require Spec.

Set Implicit Arguments.
Unset Strict Implicit.
Unset Printing Implicit Defensive.
Import Order.TTheory GRing.Theory Num.Theory.
Local Open Scope ring_scope.

(* ---- the specification ----------------------------------------------------- *)
Section Spec109.
Variable F : rcfType.
(* the sum of the squared deviations from the mean *)
Definition scat (xs : seq F) : F := \sum_(x <- xs) (x - avg xs) ^+ 2.
(* unit roundoff u, batches of at most b, m batches *)
Definition var_const (u : F) (b m : nat) : F := (1 + mean_const u b m) ^+ 2 * (1 + u) ^+ (3 * b + 6 + m).
Definition margin_const (u : F) (b m : nat) : F :=
  (1 + Num.sqrt (var_const u b m * (1 + u) - 1)) * (1 + u) ^+ 3 / (1 - u).
End Spec109.

Section Props.
Variable F : rcfType.
Implicit Types (rnd : F -> F) (u B g m a e : F) (st : racc F).

(* ---- a calculus of relative errors ------------------------------------------ *)
(* a is e up to the relative error g - 1 of the magnitude m *)
Definition near g m a e : Prop := [/\ 1 <= g, `|a - e| <= (g - 1) * m & `|e| <= m].

Lemma near_m g m a e : near g m a e -> 0 <= m.
Proof. by case=> _ _; apply: le_trans (normr_ge0 _). Qed.

Lemma near_a g m a e : near g m a e -> `|a| <= g * m.
Proof.
move=> [g1 h1 h2]; have -> : a = (a - e) + e by rewrite subrK.
apply: le_trans (ler_norm_add _ _) _; apply: le_trans (ler_add h1 h2) _.
by rewrite mulrBl mul1r subrK.
Qed.

Lemma near_refl m e : `|e| <= m -> near 1 m e e.
Proof. by move=> h; split=> //; rewrite subrr normr0 subrr mul0r. Qed.

Lemma near_weak g g' m m' a e : near g m a e -> g <= g' -> m <= m' -> near g' m' a e.
Proof.
move=> h gg mm; have m0 := near_m h; case: h => g1 h1 h2.
split; [exact: le_trans gg | | exact: le_trans mm].
apply: le_trans h1 _; apply: ler_pmul => //; first by rewrite subr_ge0.
by rewrite ler_add2r.
Qed.

Lemma near_rnd rnd u g m a e : relerr rnd u -> 0 <= u -> near g m a e -> near (g * (1 + u)) m (rnd a) e.
Proof.
move=> hr u0 [g1 h1 h2]; split=> //; last exact: comp_err.
by apply: mulr_ege1 => //; rewrite ler_addl.
Qed.

Lemma near_add g m m' a a' e e' : near g m a e -> near g m' a' e' -> near g (m + m') (a + a') (e + e').
Proof.
move=> [g1 h1 h2] [_ h3 h4]; split=> //; last by apply: le_trans (ler_norm_add _ _) _; apply: ler_add.
by rewrite opprD addrACA mulrDr; apply: le_trans (ler_norm_add _ _) _; apply: ler_add.
Qed.

Lemma near_opp g m a e : near g m a e -> near g m (- a) (- e).
Proof. by move=> [g1 h1 h2]; split=> //; rewrite ?normrN // -opprD normrN. Qed.

Lemma near_mul g g' m m' a a' e e' : near g m a e -> near g' m' a' e' -> near (g * g') (m * m') (a * a') (e * e').
Proof.
move=> h h'; have m0 := near_m h; have m0' := near_m h'; have ha := near_a h'.
case: h h' => [g1 h1 h2] [g1' h3 h4]; split; first exact: mulr_ege1.
  have -> : a * a' - e * e' = (a - e) * a' + e * (a' - e') by ring.
  apply: le_trans (ler_norm_add _ _) _; rewrite !normrM.
  have -> : (g * g' - 1) * (m * m') = ((g - 1) * m) * (g' * m') + m * ((g' - 1) * m') by ring.
  by apply: ler_add; apply: ler_pmul.
by rewrite normrM; apply: ler_pmul.
Qed.

Lemma near_sum (T : eqType) (X : seq T) (f e : T -> F) g m : 1 <= g -> (forall x, x \in X -> near g m (f x) (e x)) ->
  near g ((size X)%:R * m) (\sum_(x <- X) f x) (\sum_(x <- X) e x).
Proof.
move=> g1; elim: X => [|x X IH] h; first by rewrite !big_nil mul0r; split=> //; rewrite ?subrr ?normr0 ?mulr0.
rewrite !big_cons [size _]/= mulrS mulrDl mul1r; apply: near_add; first by apply: h; rewrite inE eqxx.
by apply: IH => y hy; apply: h; rewrite inE hy orbT.
Qed.

Lemma near_dot rnd u (T : eqType) (X : seq T) (f e : T -> F) g m q : relerr rnd u -> 0 <= u -> 1 <= g ->
  (forall x, x \in X -> near g m (f x) (e x)) -> dotv rnd [seq f x | x <- X] q ->
  near (g * (1 + u) ^+ size X) ((size X)%:R * m) q (\sum_(x <- X) e x).
Proof.
move=> hr u0 g1 h hq; have [_ h1 h2] := near_sum g1 h.
have := dotv_err hr u0 hq; rewrite size_map !big_map => h3.
have h4 : \sum_(x <- X) `|f x| <= (size X)%:R * (g * m).
  elim: (X) h => [|x Y IH] h; first by rewrite big_nil mul0r.
  rewrite big_cons [size _]/= mulrS mulrDl mul1r; apply: ler_add; first by apply: near_a (h x _); rewrite inE eqxx.
  by apply: IH => y hy; apply: h; rewrite inE hy orbT.
split=> //; first by apply: mulr_ege1 => //; exact: exp1_ge1.
have -> : q - \sum_(x <- X) e x = (q - \sum_(x <- X) f x) + (\sum_(x <- X) f x - \sum_(x <- X) e x) by ring.
apply: le_trans (ler_norm_add _ _) _; apply: le_trans (ler_add h3 h1) _.
apply: le_trans (ler_add (ler_wpmul2l _ h4) (lexx _)) _; first by rewrite subr_ge0 exp1_ge1.
by rewrite le_eqVlt; apply/orP; left; apply/eqP; ring.
Qed.

Lemma near_sqrt g m a e : 0 <= a -> 0 <= e -> near g m a e ->
  near (1 + Num.sqrt (g - 1)) (Num.sqrt m) (Num.sqrt a) (Num.sqrt e).
Proof.
move=> a0 e0 h; have m0 := near_m h; case: h => [g1 h1 h2].
split; first by rewrite ler_addl sqrtr_ge0.
  rewrite [1 + _]addrC addrK -sqrtrM ?subr_ge0 //.
  rewrite -sqrtr_sqr ler_wsqrtr //; apply: le_trans h1; rewrite -real_normK ?num_real //.
  have -> : a - e = (Num.sqrt a - Num.sqrt e) * (Num.sqrt a + Num.sqrt e).
    by rewrite -subr_sqr !sqr_sqrtr.
  rewrite normrM expr2 ler_wpmul2l // (@ger0_norm _ (Num.sqrt a + Num.sqrt e)) ?addr_ge0 ?sqrtr_ge0 //.
  by apply: le_trans (ler_norm_sub _ _) _; rewrite !(ger0_norm (sqrtr_ge0 _)).
by rewrite ger0_norm ?sqrtr_ge0 // ler_wsqrtr // -[e]ger0_norm.
Qed.

Lemma near_inv u (s s' : F) : 0 <= u -> u < 1 -> 0 < s -> `|s' - s| <= u * s ->
  near (1 / (1 - u)) s^-1 s'^-1 s^-1.
Proof.
move=> u0 u1 s0 h; have v0 : 0 < 1 - u by rewrite subr_gt0.
have lo : (1 - u) * s <= s'.
  move: h; rewrite ler_norml => /andP[h _].
  rewrite -subr_ge0; rewrite -subr_ge0 in h; move: h; suff -> : s' - s - - (u * s) = s' - (1 - u) * s by []; ring.
have s'0 : 0 < s' by apply: lt_le_trans lo; apply: mulr_gt0.
have vs : s' \is a GRing.unit /\ s \is a GRing.unit by rewrite !unitfE !gt_eqF.
split.
- by rewrite ler_pdivl_mulr // mul1r ler_subl_addr ler_addl.
- have -> : s'^-1 - s^-1 = (s - s') / (s' * s) by field; rewrite !gt_eqF.
  have -> : (1 / (1 - u) - 1) / s = u * s / ((1 - u) * s * s) by field; rewrite !gt_eqF.
  rewrite normrM normfV (gtr0_norm (mulr_gt0 s'0 s0)) distrC.
  apply: ler_pmul => //; first by rewrite invr_ge0 mulr_ge0 // ltW.
  by rewrite lef_pinv ?posrE ?mulr_gt0 // ler_pmul2r.
- by rewrite gtr0_norm // invr_gt0.
Qed.

(* ---- exact sums of squared deviations ----------------------------------------- *)
Lemma scat_cat (xs ys : seq F) : ys != [::] ->
  scat (xs ++ ys) = scat xs + (scat ys + (size xs * size ys)%:R / (size xs + size ys)%:R * (avg ys - avg xs) ^+ 2).
Proof.
move=> ny; have sy : (0 < size [seq [:: y] | y <- ys])%N by rewrite size_map lt0n size_eq0.
have e zs : scat zs = Spec.scatter [seq [:: z] | z <- zs] 0 0.
  rewrite /scat /Spec.scatter /Spec.cavg /Spec.col_of -map_comp map_id big_map.
  by apply: eq_bigr => z _; rewrite expr2.
have c zs : Spec.cavg [seq [:: z] | z <- zs] 0 = avg zs by rewrite /Spec.cavg /Spec.col_of -map_comp map_id.
by rewrite !e map_cat scatter_cat // !size_map !c expr2.
Qed.

Lemma mc_ge u (b m : nat) : 0 <= u -> (1 + u) ^+ b <= 1 + mean_const u b m /\ 0 <= mean_const u b m.
Proof.
move=> u0; have e j : 0 <= (1 + u) ^+ j - 1 by rewrite subr_ge0 exp1_ge1.
have h : (1 + u) ^+ b - 1 <= mean_const u b m.
  by rewrite /mean_const -addrA ler_addl addr_ge0 ?mulr_ge0 ?ler0n.
by split; [rewrite -ler_subl_addl | exact: le_trans h].
Qed.

Lemma mc_mono u (b m m' : nat) : 0 <= u -> (m <= m')%N -> mean_const u b m <= mean_const u b m'.
Proof. by move=> u0 mm; rewrite /mean_const ler_add2l ler_wpmul2l ?mulr_ge0 ?ler0n // ler_nat. Qed.

(* one batch: the increment of S *)
Lemma near_step rnd u B (bmax k : nat) (xs X : seq F) (mu s q : F) : relerr rnd u -> 0 <= u -> 0 <= B -> X != [::] ->
  (size X <= bmax)%N -> {in X, forall x, `|x| <= B} -> sumv rnd X s ->
  dotv rnd [seq y * y | y <- rcentered rnd (rbatch_mean rnd s (size X)) X] q ->
  near (1 + mean_const u bmax k) B mu (avg xs) ->
  near ((1 + mean_const u bmax k) ^+ 2 * (1 + u) ^+ (3 * bmax + 6)) ((size X)%:R * (8%:R * B ^+ 2))
    (rnd (q + rnd (rnd ((size xs * size X)%:R / (size xs + size X)%:R)
            * rnd (rdelta rnd (rbatch_mean rnd s (size X)) mu * rdelta rnd (rbatch_mean rnd s (size X)) mu))))
    (scat X + (size xs * size X)%:R / (size xs + size X)%:R * (avg X - avg xs) ^+ 2).
Proof.
move=> hr u0 B0 nX hb hB hs hq hmu; set G := 1 + mean_const u bmax k; set bm := rbatch_mean _ _ _.
have [Gb G0] := mc_ge bmax k u0; have G1 : 1 <= G by rewrite ler_addl.
have u1 : 1 <= 1 + u by rewrite ler_addl.
have p1 j : 1 <= (1 + u) ^+ j := exp1_ge1 j u0.
have X0 : (0 < size X)%N by rewrite lt0n size_eq0.
have hbm : near ((1 + u) ^+ bmax) B bm (avg X).
  have [h1 h2] := rbatch_err hr u0 nX hB hs.
  by apply: (@near_weak ((1 + u) ^+ size X) _ B) => //; apply: exp1_mono.
have hd : near (G * (1 + u)) (2%:R * B) (rdelta rnd bm mu) (avg X - avg xs).
  rewrite /rdelta; apply: (near_rnd hr u0).
  have -> : 2%:R * B = B + B by ring.
  by apply: near_add (near_opp hmu); apply: near_weak hbm _ _.
have hd2 := near_rnd hr u0 (near_mul hd hd).
set w := (size xs * size X)%:R / _.
have n0 : 0 < (size xs + size X)%:R :> F by rewrite ltr0n addn_gt0 X0 orbT.
have w0 : 0 <= w by rewrite divr_ge0 ?ler0n.
have wX : w <= (size X)%:R by rewrite ler_pdivr_mulr // -natrM ler_nat mulnDr [(size X * size xs)%N]mulnC leq_addr.
have hw : near (1 * (1 + u)) (size X)%:R (rnd w) w by apply: (near_rnd hr u0); apply: near_refl; rewrite ger0_norm.
have hp := near_rnd hr u0 (near_mul hw hd2).
have hc : near ((1 + u) ^+ (3 * bmax + 2)) ((size X)%:R * (4%:R * B ^+ 2)) q (scat X).
  have c1 x : x \in X -> near ((1 + u) ^+ bmax.+1 * (1 + u) ^+ bmax.+1) (4%:R * B ^+ 2)
      (rnd (x - bm) * rnd (x - bm)) ((x - avg X) ^+ 2).
    move=> hx; have hh : near ((1 + u) ^+ bmax.+1) (2%:R * B) (rnd (x - bm)) (x - avg X).
      rewrite exprSr; apply: (near_rnd hr u0); have -> : 2%:R * B = B + B by ring.
      apply: near_add (near_opp hbm); apply: near_weak (near_refl (hB x hx)) _ (lexx _); exact: p1.
    rewrite [(x - _) ^+ 2]expr2; have -> : 4%:R * B ^+ 2 = (2%:R * B) * (2%:R * B) by ring.
    exact: near_mul.
  have hq' : dotv rnd [seq rnd (x - bm) * rnd (x - bm) | x <- X] q by rewrite /rcentered -map_comp in hq.
  have := near_dot hr u0 _ c1 hq' => /(_ (mulr_ege1 (p1 _) (p1 _))) h.
  apply: near_weak h _ (lexx _); rewrite -!exprD; apply: exp1_mono => //.
  have -> : (3 * bmax + 2 = bmax.+1 + bmax.+1 + bmax)%N by lia.
  by rewrite leq_add2l.
have -> : (1 + mean_const u bmax k) ^+ 2 * (1 + u) ^+ (3 * bmax + 6) = G ^+ 2 * (1 + u) ^+ (3 * bmax + 5) * (1 + u).
  by rewrite -mulrA -exprSr addnS.
apply: (near_rnd hr u0).
have -> : (size X)%:R * (8%:R * B ^+ 2) = (size X)%:R * (4%:R * B ^+ 2) + (size X)%:R * (4%:R * B ^+ 2) by ring.
have GG : 1 <= G ^+ 2 by rewrite expr2 mulr_ege1.
apply: near_add.
  apply: near_weak hc _ (lexx _); rewrite -[X in X <= _]mul1r.
  by apply: ler_pmul; rewrite ?ler01 // ?exp1_mono //; [apply: le_trans (p1 _); exact: ler01 | lia].
rewrite [(avg X - _) ^+ 2]expr2; apply: near_weak hp _ _; last first.
  by have -> : (size X)%:R * (4%:R * B ^+ 2) = (size X)%:R * (2%:R * B * (2%:R * B)) by ring.
have -> : 1 * (1 + u) * (G * (1 + u) * (G * (1 + u)) * (1 + u)) * (1 + u) = G * G * (1 + u) ^+ 5 by ring.
rewrite ler_wpmul2l ?mulr_ge0 ?(le_trans ler01 G1) //; apply: exp1_mono => //; lia.
Qed.

Lemma near_S rnd u B (bmax : nat) h st : relerr rnd u -> 0 <= u -> 0 <= B -> rrun rnd h st ->
  {in h, forall X, (size X <= bmax)%N} -> {in flatten h, forall x, `|x| <= B} -> mean_const u bmax (size h) <= 1 ->
  near (var_const u bmax (size h)) ((size (flatten h))%:R * (8%:R * B ^+ 2)) (ra_S st) (scat (flatten h)).
Proof.
move=> hr u0 B0; elim=> {h st} [|h st X st' hrun IH nX [s [q [hs hq ->]]]] hb hB hc.
  rewrite /scat !big_nil mul0r; split; rewrite ?subrr ?normr0 ?mulr0 //.
  have [_ m0] := mc_ge bmax 0 u0.
  by apply: mulr_ege1; [rewrite expr2 mulr_ege1 ?ler_addl | exact: exp1_ge1].
rewrite size_rcons in hc *; have eh : flatten (rcons h X) = flatten h ++ X by rewrite -cats1 flatten_cat /= cats0.
rewrite eh in hB *.
have hb' : {in h, forall Y, (size Y <= bmax)%N} by move=> Y hY; apply: hb; rewrite mem_rcons inE hY orbT.
have hB' : {in flatten h, forall x, `|x| <= B} by move=> x hx; apply: hB; rewrite mem_cat hx.
have hBX : {in X, forall x, `|x| <= B} by move=> x hx; apply: hB; rewrite mem_cat hx orbT.
have hc' : mean_const u bmax (size h) <= 1 by apply: le_trans hc; apply: mc_mono.
have hbX : (size X <= bmax)%N by apply: hb; rewrite mem_rcons inE eqxx.
have hmu : near (1 + mean_const u bmax (size h)) B (ra_mu st) (avg (flatten h)).
  split; first by rewrite ler_addl; have [] := mc_ge bmax (size h) u0.
    by rewrite addrAC subrr add0r; exact: (C87_mean_forward_error hr u0 B0 hrun hb' hB' hc').
  have [-> //|ne] := eqVneq (flatten h) [::]; first by rewrite /avg big_nil mul0r normr0.
  have [s1 hs1] := sumv_total rnd (flatten h).
  by have [] := rbatch_err hr u0 ne hB' hs1.
have hst := near_step hr u0 B0 nX hbX hBX hs hq hmu.
rewrite /rS_step /= (rrun_n hrun) scat_cat // size_cat.
have -> : (size (flatten h) + size X)%:R * (8%:R * B ^+ 2) =
  (size (flatten h))%:R * (8%:R * B ^+ 2) + (size X)%:R * (8%:R * B ^+ 2) by rewrite natrD mulrDl.
have V : var_const u bmax (size h) * (1 + u) <= var_const u bmax (size h).+1.
  rewrite /var_const -mulrA -exprSr [(3 * bmax + 6 + (size h).+1)%N]addnS ler_wpmul2r ?exprn_ge0 ?addr_ge0 ?ler01 //.
  have [_ m0] := mc_ge bmax (size h) u0; have [_ m0'] := mc_ge bmax (size h).+1 u0.
  have a0 : 0 <= 1 + mean_const u bmax (size h) by exact: addr_ge0 ler01 m0.
  have a1 : 1 + mean_const u bmax (size h) <= 1 + mean_const u bmax (size h).+1 by rewrite ler_add2l; apply: mc_mono.
  by rewrite !expr2; apply: ler_pmul.
apply: near_weak V (lexx _); apply: (near_rnd hr u0); apply: near_add (IH hb' hB' hc') _.
apply: near_weak hst _ (lexx _); rewrite /var_const ler_wpmul2l ?sqr_ge0 //.
by apply: exp1_mono => //; rewrite leq_addr.
Qed.

(* ---- C109: the accumulated sum of squared deviations ------------------------------ *)
Theorem C109_scatter_error rnd u B (bmax : nat) h st :
  relerr rnd u -> 0 <= u -> 0 <= B -> rrun rnd h st ->
  {in h, forall X, (size X <= bmax)%N} -> {in flatten h, forall x, `|x| <= B} -> mean_const u bmax (size h) <= 1 ->
  `|ra_S st - scat (flatten h)| <= (var_const u bmax (size h) - 1) * ((size (flatten h))%:R * (8%:R * B ^+ 2)).
Proof. by move=> hr u0 B0 hrun hb hB hc; have [] := near_S hr u0 B0 hrun hb hB hc. Qed.

Lemma near_var rnd u B (bmax ddof : nat) h st : relerr rnd u -> 0 <= u -> 0 <= B -> rrun rnd h st ->
  {in h, forall X, (size X <= bmax)%N} -> {in flatten h, forall x, `|x| <= B} -> mean_const u bmax (size h) <= 1 ->
  let n := size (flatten h) in (ddof < n)%N ->
  near (var_const u bmax (size h) * (1 + u)) (n%:R * (8%:R * B ^+ 2) / (n - ddof)%:R)
    (rnd (ra_S st / (n - ddof)%:R)) (scat (flatten h) / (n - ddof)%:R).
Proof.
move=> hr u0 B0 hrun hb hB hc n hn; apply: (near_rnd hr u0).
have d0 : 0 < (n - ddof)%:R :> F by rewrite ltr0n subn_gt0.
rewrite -[var_const _ _ _]mulr1; apply: near_mul; first exact: near_S.
by apply: near_refl; rewrite ger0_norm // invr_ge0 ltW.
Qed.

Theorem C109_variance_error rnd u B (bmax ddof : nat) h st :
  relerr rnd u -> 0 <= u -> 0 <= B -> rrun rnd h st ->
  {in h, forall X, (size X <= bmax)%N} -> {in flatten h, forall x, `|x| <= B} -> mean_const u bmax (size h) <= 1 ->
  let n := size (flatten h) in (ddof < n)%N ->
  exists2 v, rcov_call rnd st ddof = Fin v &
    `|v - scat (flatten h) / (n - ddof)%:R| <=
      (var_const u bmax (size h) * (1 + u) - 1) * (n%:R * (8%:R * B ^+ 2) / (n - ddof)%:R).
Proof.
move=> hr u0 B0 hrun hb hB hc n hn; rewrite /rcov_call (rrun_n hrun) leqNgt hn /=.
by eexists; [reflexivity | have [] := near_var hr u0 B0 hrun hb hB hc hn].
Qed.

Theorem C109_first_order u (b m : nat) : 0 <= u -> 6%:R * u <= 1 -> (2 * (3 * b + 7 + m))%:R * u <= 1 ->
  mean_const u b m <= 1 ->
  var_const u b m * (1 + u) - 1 <= (30 * b + 128 + 17 * m)%:R * u.
Proof.
move=> u0 u6 hu hc.
have half : (3 * b + 7 + m)%:R * u <= 1 / 2%:R by rewrite ler_pdivl_mulr ?ltr0n // mulrC mulrA -natrM.
have E := exp_lin u0 half.
have bu : (2 * b)%:R * u <= 1 by apply: le_trans hu; rewrite ler_wpmul2r // ler_nat; lia.
have nu : (4 * 0)%:R * u <= 1 by rewrite muln0 mul0r ler01.
have [hm _] := @C107_first_order F u 0 b m u0 u6 nu bu.
have [_ m0] := mc_ge b m u0.
have -> : var_const u b m * (1 + u) = (1 + mean_const u b m) ^+ 2 * (1 + u) ^+ (3 * b + 7 + m).
  by rewrite /var_const -mulrA -exprSr; congr (_ * _ ^+ _); lia.
move: E hm hc m0; set mc := mean_const u b m; set K := (3 * b + 7 + m)%N; set e := (1 + u) ^+ K.
move=> E hm hc m0; have e0 : 0 <= e - 1 by rewrite subr_ge0 exp1_ge1.
have -> : (1 + mc) ^+ 2 * e - 1 = (2%:R + mc) * mc + (1 + mc) ^+ 2 * (e - 1) by ring.
have h1 : (2%:R + mc) * mc <= 3%:R * mc.
  by rewrite ler_wpmul2r // (natrD _ 2 1) ler_add2l.
have h2 : (1 + mc) ^+ 2 * (e - 1) <= 4%:R * (e - 1).
  rewrite ler_wpmul2r // -[4%:R]/((2 * 2)%:R) natrM expr2.
  have a0 : 0 <= 1 + mc by exact: addr_ge0 ler01 m0.
  have a1 : 1 + mc <= 2%:R by rewrite (natrD _ 1 1) ler_add2l.
  exact: ler_pmul.
apply: le_trans (ler_add h1 h2) _.
have -> : (30 * b + 128 + 17 * m)%:R * u = 3%:R * ((2 * b + 24 + 3 * m)%:R * u) + 4%:R * (2%:R * K%:R * u).
  have -> : (30 * b + 128 + 17 * m = 3 * (2 * b + 24 + 3 * m) + 4 * (2 * K))%N by rewrite /K; lia.
  by rewrite natrD natrM [in X in _ + X]natrM (natrM _ 2 K); ring.
by apply: ler_add; rewrite ler_wpmul2l ?ler0n.
Qed.

(* ---- C109: the margin of error ----------------------------------------------------- *)
Theorem C109_margin_error rnd u B (bmax : nat) h st (score : F) :
  relerr rnd u -> keeps_sign rnd -> 0 <= u -> u < 1 -> 0 <= B -> 0 <= score -> rrun rnd h st ->
  {in h, forall X, (size X <= bmax)%N} -> {in flatten h, forall x, `|x| <= B} -> mean_const u bmax (size h) <= 1 ->
  let n := size (flatten h) in (1 < n)%N ->
  exists2 e, rmargin rnd score st = Fin e &
    `|e - score * Spec.std_err (flatten h)| <=
      (margin_const u bmax (size h) - 1) * (score * (B * Num.sqrt (8%:R / (n - 1)%:R))).
Proof.
move=> hr ks u0 u1 B0 s0 hrun hb hB hc n hn.
have hv := near_var hr u0 B0 hrun hb hB hc hn.
have d0 : 0 < (n - 1)%:R :> F by rewrite ltr0n subn_gt0.
have n0 : 0 < n%:R :> F by rewrite ltr0n ltnW.
set v := rnd _ in hv; set V := scat _ / _ in hv.
have V0 : 0 <= V by rewrite divr_ge0 ?ler0n // sumr_ge0 // => x _; exact: sqr_ge0.
have v0 : 0 <= v by rewrite /v; apply: (ks); rewrite divr_ge0 ?ler0n // (rS_ge0 ks hrun).
rewrite /rmargin /rstd_error /rcov_call (rrun_n hrun) -/n leqNgt hn /= -/v ltNge v0 /=.
eexists; first by reflexivity.
have h1 := near_rnd hr u0 (near_sqrt v0 V0 hv).
have sn : 0 < Num.sqrt n%:R :> F by rewrite sqrtr_gt0.
have h2 : near (1 / (1 - u)) (Num.sqrt n%:R)^-1 (rnd (Num.sqrt n%:R))^-1 (Num.sqrt n%:R)^-1.
  by apply: near_inv => //; have := hr (Num.sqrt n%:R); rewrite (gtr0_norm sn).
have h3 := near_rnd hr u0 (near_mul h1 h2).
have hs : near 1 score score score by apply: near_refl; rewrite ger0_norm.
have [_ h4 _] := near_rnd hr u0 (near_mul hs h3).
have -> : Spec.std_err (flatten h) = Num.sqrt V / Num.sqrt n%:R.
  by rewrite /Spec.std_err /Spec.sample_var /V /scat natrB // ltnW.
apply: le_trans h4 _; rewrite le_eqVlt; apply/orP; left; apply/eqP.
congr (_ * (_ * _)); first by rewrite /margin_const; set z := Num.sqrt _; rewrite !exprS expr0 mulr1 mul1r !div1r; congr (_ - 1); ring.
rewrite -sqrtrV ?ler0n // -sqrtrM; last by rewrite !mulr_ge0 ?invr_ge0 ?ler0n ?exprn_ge0.
have -> : n%:R * (8%:R * B ^+ 2) / (n - 1)%:R / n%:R = B ^+ 2 * (8%:R / (n - 1)%:R).
  by field; rewrite !gt_eqF.
by rewrite sqrtrM ?sqr_ge0 // sqrtr_sqr ger0_norm.
Qed.

(* what this says about stopping on the absolute tolerance (estimators.py 287-288) *)
Theorem C109_stopping rnd u B (bmax : nat) h st (conf atol : F) tppf zq :
  relerr rnd u -> keeps_sign rnd -> 0 <= u -> u < 1 -> 0 <= B -> rrun rnd h st ->
  {in h, forall X, (size X <= bmax)%N} -> {in flatten h, forall x, `|x| <= B} -> mean_const u bmax (size h) <= 1 ->
  let n := size (flatten h) in let score := rscore tppf zq conf n in (2 < n)%N -> 0 <= score ->
  let exact := score * Spec.std_err (flatten h) in
  let slack := (margin_const u bmax (size h) - 1) * (score * (B * Num.sqrt (8%:R / (n - 1)%:R))) in
  (exact + slack <= atol -> rcall rnd tppf zq (RConf conf (Fin atol) NInf) st) /\
  (atol < exact - slack -> ~~ rcall rnd tppf zq (RConf conf (Fin atol) NInf) st).
Proof.
move=> hr ks u0 u1 B0 hrun hb hB hc n score hn s0 exact slack.
have [e he] := C109_margin_error hr ks u0 u1 B0 s0 hrun hb hB hc (ltnW hn).
rewrite -/exact -/slack ler_distl => /andP[h1 h2].
rewrite /= (rrun_n hrun) -/n ltnNge hn /= -/score he /=.
have -> : xle (rrel_error rnd st) NInf = false.
  rewrite /rrel_error; case: (rstd_error rnd st) => //= x; case: ifP => //= _; rewrite /xinf_of_sign.
  by case: ifP => //; case: ifP.
rewrite orbF -ltNge; split=> hh; first exact: le_trans h2 hh.
exact: lt_le_trans hh h1.
Qed.

(* relative to the variance itself there is no bound: equal samples can get a positive variance *)
Theorem C109_relative_refuted :
  exists rnd : F -> F, [/\ {homo rnd : x y / x <= y}, relerr rnd (1 / 16%:R), int_exact rnd 40 &
    exists2 st, rrun rnd [:: nseq 3 14%:R] st & scat (nseq 3 14%:R : seq F) = 0 /\ rcov_call rnd st 1 = Fin (3%:R / 2%:R)].
Proof.
set B4 := @bad4 F; have bi (k : nat) : (k <= 40)%N -> B4 k%:R = k%:R by move=> hk; exact: (@bad4_int F k%:Z).
have b42 : B4 42%:R = 40%:R.
  rewrite /B4 /bad4 {2}/flat ler_nat lexx /= /flat [X in _ && X]lt_geF ?andbF //.
  by apply: lt_trans (h403 F) _; rewrite ltr_nat.
have b13 : B4 (40%:R / 3%:R) = 13%:R.
  rewrite /B4 /bad4 {2}/flat lt_geF /=; last by apply: lt_trans (h403 F) _; rewrite ltr_nat.
  by rewrite /flat h133 lexx.
have b32 : B4 (3%:R / 2%:R) = 3%:R / 2%:R.
  have lt13 : 3%:R / 2%:R < 13%:R :> F by rewrite ltr_pdivr_mulr ?ltr0n // -natrM ltr_nat.
  by rewrite /B4 /bad4 {2}/flat lt_geF ?(lt_trans lt13) ?ltr_nat //= /flat lt_geF.
have hs : sumv B4 (nseq 3 14%:R) 40%:R.
  have -> : nseq 3 (14%:R : F) = [:: 14%:R; 14%:R] ++ [:: 14%:R] by [].
  rewrite -b42 [in 42%:R](_ : 42 = 28 + 14)%N // natrD; apply: SumAdd => //; last exact: Sum1.
  rewrite -(bi 28%N isT) [in 28%:R](_ : 28 = 14 + 14)%N // natrD.
  by apply: (@SumAdd _ _ [:: _] [:: _]) => //; apply: Sum1.
have e1 : B4 (14%:R - 13%:R) = 1 by rewrite (_ : 14%:R - 13%:R = 1%:R) ?bi //; ring.
have hq : dotv B4 [seq y * y | y <- rcentered B4 (rbatch_mean B4 40%:R 3) (nseq 3 14%:R)] 3%:R.
  rewrite /rbatch_mean b13 /= e1 mulr1 -[3%:R](bi 3%N isT) [in 3%:R](_ : 3 = 2 + 1)%N // natrD.
  apply: DotFma; rewrite -[2%:R](bi 2%N isT) [in 2%:R](_ : 2 = 1 + 1)%N // natrD.
  apply: DotFma; rewrite -[X in dotv _ _ X](bi 1%N isT) -[1%:R]add0r; apply: DotFma; exact: Dot0.
exists B4; split; [exact: bad4_mono | exact: bad4_relerr | exact: bad4_int |].
eexists; first by apply: (@RunS _ _ [::]); [exact: Run0 | by [] | exists 40%:R, 3%:R; split].
split; first by rewrite /scat /avg /= !big_cons !big_nil !addr0 /=; field.
rewrite /rcov_call /= /rS_step mul0n mul0r (bi 0%N isT) mul0r (bi 0%N isT) addr0 (bi 3%N isT) add0r (bi 3%N isT).
by rewrite -[(_ - _)%N]/2%N b32.
Qed.
End Props.

Section Examples.
Variable F : rcfType.
(* samples 1, 3 and then 5, every operation too large by one part in 2^20 *)
Let h135 : seq (seq F) := [:: [:: 1; 3%:R]; [:: 5%:R]].

Example C109_ex : exists2 st, rrun (@up20 F) h135 st &
  (exists2 v, rcov_call (@up20 F) st 1 = Fin v & `|v - 4%:R| <= 1 / 10%:R) /\
  exists2 e, rmargin (@up20 F) 2%:R st = Fin e &
    `|e - 2%:R * Spec.std_err [:: 1; 3%:R; 5%:R]| <= (margin_const (u20 F) 2 2 - 1) * 20%:R.
Proof.
have [st hst] : exists st, rrun (@up20 F) h135 st.
  by apply: rrun_total => X; rewrite !inE => /orP[] /eqP ->.
have u0 := u20_ge0 F; have ur := @up20_relerr F.
have ks : keeps_sign (@up20 F) by move=> x x0; rewrite /up20 mulr_ge0 ?addr_ge0 ?ler01.
have nu : (4 * 0)%:R * u20 F <= 1 by rewrite muln0 mul0r ler01.
have [mc _] := @C107_first_order F (u20 F) 0 2 2 u0 (u20_le F (isT : 6 <= 1024)%N) nu (u20_le F (isT : 2 * 2 <= 1024)%N).
have {}mc : mean_const (u20 F) 2 2 <= 1 by apply: le_trans mc _; apply: u20_le.
have vc := C109_first_order (b := 2) (m := 2) u0 (u20_le F (isT : 6 <= 1024)%N)
  (u20_le F (isT : 2 * (3 * 2 + 7 + 2) <= 1024)%N) mc.
have hb : {in h135, forall X, (size X <= 2)%N} by move=> X; rewrite !inE => /orP[] /eqP ->.
have hB : {in flatten h135, forall x, `|x| <= 5%:R}.
  by move=> x; rewrite /= !inE => /or3P[] /eqP ->; rewrite ?normr1 ?normr_nat ?(ler_nat _ 1 5) ?ler_nat.
have sc : scat (flatten h135) = 8%:R by rewrite /scat /avg /= !big_cons !big_nil /=; field.
have B0 : 0 <= 5%:R :> F := ler0n _ _.
exists st => //; split.
- have [v -> hv] := C109_variance_error ur u0 B0 hst hb hB mc (isT : (1 < size (flatten h135))%N).
  exists v => //; move: hv; rewrite sc /= -[(3 - 1)%N]/2%N => hv.
  have -> : v - 4%:R = v - 8%:R / 2%:R by field.
  apply: le_trans hv _.
  have -> : 3%:R * (8%:R * 5%:R ^+ 2) / 2%:R = 300%:R :> F by field.
  apply: le_trans (ler_wpmul2r (ler0n _ _) vc) _.
  have -> : u20 F = 1 / (1024%:R * 1024%:R) by rewrite /u20; field.
  have -> : (30 * 2 + 128 + 17 * 2)%:R = 222%:R :> F by [].
  rewrite mulrA mulr1 mulrAC ler_pdivr_mulr ?mulr_gt0 ?ltr0n // mulrAC ler_pdivl_mulr ?ltr0n // mul1r -!natrM ler_nat.
  lia.
have u1 : u20 F < 1.
  apply: (@lt_le_trans _ _ (2%:R * u20 F)); last exact: u20_le.
  have up : 0 < u20 F by rewrite exprn_gt0 // invr_gt0 ltr0n.
  by rewrite mulr_natl mulr2n ltr_addl.
have [e -> he] := C109_margin_error ur ks u0 u1 B0 (ler0n F 2) hst hb hB mc (isT : (1 < size (flatten h135))%N).
exists e => //; move: he; rewrite -[(size _ - 1)%N]/2%N.
have -> : 8%:R / 2%:R = 2%:R ^+ 2 :> F by field.
rewrite sqrtr_sqr normr_nat.
by have -> : 2%:R * (5%:R * 2%:R) = 20%:R :> F by rewrite -!natrM.
Qed.
End Examples.

Print Assumptions C109_scatter_error.
Print Assumptions C109_variance_error.
Print Assumptions C109_first_order.
Print Assumptions C109_margin_error.
Print Assumptions C109_stopping.
Print Assumptions C109_relative_refuted.
