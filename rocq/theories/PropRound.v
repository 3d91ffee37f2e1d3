(* C86-C88: the accumulators and the Rademacher probe in rounded arithmetic. *)
From mathcomp Require Import all_ssreflect all_algebra zify ring.
From Verif Require Import Base ModelStats ModelRound.
From Verif Require Spec LemStats PropStats.

Set Implicit Arguments.
Unset Strict Implicit.
Unset Printing Implicit Defensive.
Import Order.TTheory GRing.Theory Num.Theory.
Local Open Scope ring_scope.

(* ---- the specification: what is asked of a rounding ---------------------- *)
Section Spec.
Variable F : rcfType.

(* rounding never turns a non-negative number negative; true of every IEEE mode *)
Definition keeps_sign (rnd : F -> F) : Prop := forall x, 0 <= x -> 0 <= rnd x.

(* the standard model: relative error at most u *)
Definition relerr (rnd : F -> F) (u : F) : Prop := forall x, `|rnd x - x| <= u * `|x|.

(* integers up to M are representable (M = 2^53 for float64) *)
Definition int_exact (rnd : F -> F) (M : nat) : Prop :=
  forall z : int, (absz z <= M)%N -> rnd z%:~R = z%:~R.

Definition avg (xs : seq F) : F := (\sum_(x <- xs) x) / (size xs)%:R.

End Spec.

Section Props.
Variable F : rcfType.
Implicit Types (rnd : F -> F) (st : racc F) (u B x : F).

(* ---- C86: the variance is never negative --------------------------------- *)
Lemma dotv_ge0 rnd ps a : keeps_sign rnd -> dotv rnd ps a ->
  {in ps, forall p, 0 <= p} -> 0 <= a.
Proof.
move=> ks; elim=> {ps a} [|p|p ps a _ IH|ps qs a b _ _ _ IHa _ IHb|ps qs a pq _ IH] h //.
- by apply: ks; apply: h; rewrite inE.
- apply: ks; apply: addr_ge0; last by apply: h; rewrite inE eqxx.
  by apply: IH => q hq; apply: h; rewrite inE hq orbT.
- by apply: ks; apply: addr_ge0; [apply: IHa | apply: IHb] => q hq; apply: h;
     rewrite mem_cat hq ?orbT.
- by apply: IH => q hq; apply: h; rewrite -(perm_mem pq).
Qed.

Lemma rS_ge0 rnd h st : keeps_sign rnd -> rrun rnd h st -> 0 <= ra_S st.
Proof.
move=> ks; elim=> {h st} [|h st X st' _ IH _ [s [q [_ hq ->]]]] //=.
apply/ks/addr_ge0 => //; apply/ks/addr_ge0.
  apply: (dotv_ge0 ks hq) => p /mapP[y _ ->]; rewrite -expr2; exact: sqr_ge0.
apply/ks/mulr_ge0; apply: (ks); first by rewrite divr_ge0 ?ler0n.
by rewrite -expr2 sqr_ge0.
Qed.

Theorem C86_variance_nonneg rnd h st (ddof : nat) :
  keeps_sign rnd -> rrun rnd h st ->
  (rcov_call rnd st ddof = PInf /\ (size (flatten h) <= ddof)%N) \/
  exists2 v, rcov_call rnd st ddof = Fin v & 0 <= v.
Proof.
move=> ks hr.
have hn : ra_n st = size (flatten h).
  elim: hr => {h st} [|h st X st' _ IH _ [s [q [_ _ ->]]]] //=.
  by rewrite -cats1 flatten_cat size_cat /= cats0 IH.
rewrite /rcov_call -hn; case: leqP => hd; [by left | right].
eexists; first by [].
by apply: (ks); rewrite divr_ge0 ?ler0n // (rS_ge0 ks hr).
Qed.

Theorem C86_margin_defined rnd h st (score : F) :
  keeps_sign rnd -> 0 <= score -> rrun rnd h st -> (1 < size (flatten h))%N ->
  exists2 m, rmargin rnd score st = Fin m & 0 <= m.
Proof.
move=> ks hs hr h1; case: (C86_variance_nonneg 1 ks hr) => [[_ hd]|[v hv v0]].
  by exfalso; lia.
rewrite /rmargin /rstd_error hv /= ltNge v0 /=; eexists; first by [].
apply/ks/mulr_ge0 => //; apply/ks/divr_ge0; apply: ks; exact: sqrtr_ge0.
Qed.

(* ---- C86: the rounded model with exact arithmetic is the exact model ------ *)
Lemma sumv_id xs a : sumv (@id F) xs a -> a = \sum_(x <- xs) x.
Proof.
elim=> {xs a} [|x|xs ys a b _ _ _ -> _ ->|xs ys a pq _ ->]; rewrite ?big_nil ?big_seq1 ?big_cat //.
exact: perm_big.
Qed.

Lemma dotv_id xs a : dotv (@id F) xs a -> a = \sum_(x <- xs) x.
Proof.
elim=> {xs a} [|x|p ps a _ ->|xs ys a b _ _ _ -> _ ->|xs ys a pq _ ->];
  rewrite ?big_nil ?big_seq1 ?big_cons ?big_cat //; first by rewrite addrC.
exact: perm_big.
Qed.

Definition cov_of st : cov F := MkCov 1 (ra_n st) (Vec [:: ra_mu st]) (Mat [:: [:: ra_S st]]).

Theorem C86_exact_arithmetic st (X : seq F) st' :
  X != [::] -> rupdate (@id F) st X st' ->
  cov_update (cov_of st) (Arr1 X) = (cov_of st', None).
Proof.
case: X => // x X _ [s [q [/sumv_id hs /dotv_id hq ->]]].
rewrite /cov_update /as_rows.
set Y := [seq [:: y] | y <- x :: X].
have sY : size Y = (size X).+1 by rewrite size_map.
have bY : batch_mean Y 0 = s / (size X).+1%:R by rewrite /batch_mean sY hs big_map.
have Yn0 : Y != [::] by [].
have emu n mu : mu_step 1 n (Vec [:: mu]) Y =
    Vec [:: mu + (size Y)%:R / (n + size Y)%:R * (batch_mean Y 0 - mu)] by [].
have eS n mu v : S_step 1 n (Vec [:: mu]) (Mat [:: [:: v]]) Y =
    Mat [:: [:: v + (\sum_(y <- Y) (y`_0 - batch_mean Y 0) * (y`_0 - batch_mean Y 0)
       + (n * size Y)%:R / (n + size Y)%:R
         * ((batch_mean Y 0 - mu) * (batch_mean Y 0 - mu)))]] by [].
rewrite [co_dim _]/= [co_n _]/= [co_mu _]/= [co_S _]/= eqxx emu eS sY bY addnS.
rewrite hq /rcentered !big_map /cov_of /rmu_step /rS_step /rdelta /rbatch_mean /= addnS.
by [].
Qed.

Lemma run_exact h st : rrun (@id F) h st ->
  run_hist (@cov_update F) (cov_init F 1) (map (@Arr1 F) h) = Some (cov_of st).
Proof.
elim=> {h st} [|h st X st' _ IH nX hX] //.
have cat_run (st0 : cov F) l1 l2 : run_hist (@cov_update F) st0 (l1 ++ l2) =
    if run_hist (@cov_update F) st0 l1 is Some st1 then run_hist (@cov_update F) st1 l2 else None.
  by elim: l1 st0 => //= x l1 IHl st0; case: (cov_update st0 x) => st1 [].
by rewrite map_rcons -cats1 cat_run IH /= (C86_exact_arithmetic nX hX).
Qed.

(* ... so it ends with the mean, the sample variance and the margin of all samples *)
Theorem C86_exact_results h st (ddof : nat) (score : F) : rrun (@id F) h st -> h != [::] ->
  let xs := flatten h in
  [/\ ra_n st = size xs, ra_mu st = avg xs,
      rcov_call (@id F) st ddof =
        if (size xs <= ddof)%N then PInf else Fin ((\sum_(x <- xs) (x - avg xs) ^+ 2) / (size xs - ddof)%:R)
    & (1 < size xs)%N -> rmargin (@id F) score st = Fin (score * Spec.std_err xs)].
Proof.
move=> hr h0 xs; have R := run_exact hr.
have ar : all_rows (map (@Arr1 F) h) = [seq [:: x] | x <- xs].
  by rewrite /all_rows /rows_of -map_comp /xs; elim: (h) => //= X l ->; rewrite map_cat.
have ne : PropStats.nonempty_hist (map (@Arr1 F) h).
  elim: hr {h0 R xs ar} => {h st} [|h st X st' _ IH nX _] //.
  by rewrite map_rcons /PropStats.nonempty_hist all_rcons -/(PropStats.nonempty_hist _) IH andbT /rows_of /= size_map lt0n size_eq0.
have cl : Spec.col_of (all_rows (map (@Arr1 F) h)) 0 = xs by rewrite ar /Spec.col_of -map_comp map_id.
have [en em] := PropStats.C01_covariance_mean_history ne R; rewrite ar size_map /= in en.
have s0 : (size xs != 0)%N.
  rewrite -[xs]map_id -(size_map (fun x => [:: x])) map_id -ar; case: (h) h0 ne => // X l _ /andP[h1 _].
  by rewrite /all_rows /= size_cat; move: h1; rewrite lt0n; case: (size (rows_of _)).
have {}em : ra_mu st = avg xs.
  move: em; rewrite /PropStats.as_read /= /Spec.cavg cl /cov_mean /mean_call /= en (negbTE s0).
  by case: (h) h0 => // X l _ -[].
have ec (dd : nat) : rcov_call (@id F) st dd =
        if (size xs <= dd)%N then PInf else Fin ((\sum_(x <- xs) (x - avg xs) ^+ 2) / (size xs - dd)%:R).
  rewrite /rcov_call en; case: leqP => // hd.
  have := PropStats.C02_covariance_history (ddof := dd%:Z) ne R; rewrite ar size_map ltz_nat => /(_ hd).
  rewrite /cov_call /= en subr_le0 lez_nat leqNgt hd /= subzn ?(ltnW hd) // -pmulrn => -[->].
  rewrite /Spec.scatter -ar /Spec.cavg cl ar big_map.
  by congr (Fin (_ / _)); apply: eq_bigr => x _; rewrite expr2.
split=> // h1; rewrite /rmargin /rstd_error ec leqNgt h1 /= ltNge divr_ge0 ?ler0n ?sumr_ge0 //=; last by move=> x _; exact: sqr_ge0.
by rewrite en /Spec.std_err /Spec.sample_var natrB // (ltnW h1).
Qed.

(* ---- C86: constant samples, one at a time --------------------------------- *)
Lemma sumv_one rnd xs a x : sumv rnd xs a -> xs = [:: x] -> a = x.
Proof.
elim=> {xs a} [|y|xs ys a b nx ny _ _ _ _|xs ys a pq _ IH] //.
- by case.
- by case: xs nx => // z [|? ?] //; case: ys ny.
- by move=> e; rewrite e in pq; apply/IH/perm_small_eq.
Qed.

Lemma dotv_zero rnd ps a : rnd 0 = 0 -> dotv rnd ps a ->
  {in ps, forall p, p = 0} -> a = 0.
Proof.
move=> r0; elim=> {ps a} [|p|p ps a _ IH|ps qs a b _ _ _ IHa _ IHb|ps qs a pq _ IH] h //.
- by rewrite (h p) ?inE.
- rewrite (h p) ?inE ?eqxx // IH ?addr0 // => q hq; apply: h; by rewrite inE hq orbT.
- by rewrite IHa ?IHb ?addr0 // => q hq; apply: h; rewrite mem_cat hq ?orbT.
- by apply: IH => q hq; apply: h; rewrite -(perm_mem pq).
Qed.

Theorem C86_constant_exact rnd x (n : nat) st :
  rnd 0 = 0 -> rnd 1 = 1 -> rnd x = x ->
  rrun rnd (nseq n.+1 [:: x]) st -> st = MkRacc n.+1 x 0.
Proof.
move=> r0 r1 rx.
suff H h : rrun rnd h st -> all (pred1 [:: x]) h ->
    st = if h is [::] then racc0 F else MkRacc (size h) x 0.
  by move/H => -> /=; rewrite ?eqxx ?all_nseq /= ?eqxx ?orbT // size_nseq.
elim=> {h st} [|h st X st' _ IH _ [s [q [hs hq ->]]]] //.
rewrite all_rcons => /andP[/eqP eX /IH {IH} est]; rewrite {}eX in hs hq *.
have {hs} es : s = x by apply: (sumv_one hs).
have ebm : rbatch_mean rnd s 1 = x by rewrite es /rbatch_mean divr1.
have eq0 : q = 0.
  apply: (dotv_zero r0 hq) => p; rewrite /= ebm subrr r0 mul0r inE.
  by move/eqP.
have -> : (if rcons h [:: x] is [::] then racc0 F else MkRacc (size (rcons h [:: x])) x 0)
          = MkRacc (size h).+1 x 0 by rewrite size_rcons; case: (h).
rewrite /= ebm eq0 est.
case: h {est hq} => [|y h] /=.
  rewrite /rmu_step /rS_step /rdelta subr0 rx add0n divr1 r1 mul1r rx add0r rx.
  by rewrite mul0n mul0r r0 mul0r r0 addr0 r0 addr0 r0.
rewrite /rmu_step /rS_step /rdelta subrr r0 !mulr0 r0 mulr0 r0 !addr0 rx r0 addr0 r0.
by rewrite addn1.
Qed.

(* the same claim for batches of three is false: 14 + 14 + 14 = 42 -> 40 and
   40/3 -> 13 with four significant bits.  bad4 is a monotone rounding that
   agrees with that and is exact outside [40,42] and [13,40/3]. *)
Definition flat (a b x : F) : F := if (a <= x) && (x <= b) then a else x.
Definition bad4 x : F := flat 13%:R (40%:R / 3%:R) (flat 40%:R 42%:R x).

Lemma flat_mono a b x y : x <= y -> flat a b x <= flat a b y.
Proof.
move=> xy; rewrite /flat.
case: (boolP (a <= x)) => [ax|]; last rewrite -ltNge => xa.
  rewrite (le_trans ax xy) /=.
  case: (boolP (y <= b)) => yb; first by rewrite (le_trans xy yb).
  by case: ifP => _ //; apply: le_trans ax xy.
by rewrite /=; case: ifP => _ //; apply: ltW.
Qed.

Lemma bad4_mono x y : x <= y -> bad4 x <= bad4 y.
Proof. by move=> xy; do 2!apply: flat_mono. Qed.

Lemma flat_relerr a b u : 0 <= a -> 0 <= u -> b - a <= u * a -> relerr (flat a b) u.
Proof.
move=> a0 u0 h x; rewrite /flat; case: ifP => [/andP[ax xb]|_]; last first.
  by rewrite subrr normr0 mulr_ge0.
rewrite distrC ger0_norm ?subr_ge0 // (ger0_norm (le_trans a0 ax)).
apply: le_trans (ler_add xb (lexx _)) _; apply: le_trans h _.
exact: ler_wpmul2l.
Qed.

Lemma h403 : 40%:R / 3%:R < (14%:R : F).
Proof. by rewrite ltr_pdivr_mulr ?ltr0n // -natrM ltr_nat. Qed.

Lemma h133 : (13%:R : F) <= 40%:R / 3%:R.
Proof. by rewrite ler_pdivl_mulr ?ltr0n // -natrM ler_nat. Qed.

Lemma bad4_relerr : relerr bad4 (1 / 16%:R).
Proof.
have u0 : 0 <= 1 / 16%:R :> F by rewrite divr_ge0 ?ler01 ?ler0n.
have r1 : relerr (flat 40%:R 42%:R) (1 / 16%:R).
  apply: flat_relerr => //; first exact: ler0n.
  by rewrite mulrAC ler_pdivl_mulr ?ltr0n // -natrB // mul1r -natrM ler_nat.
have r2 : relerr (flat 13%:R (40%:R / 3%:R)) (1 / 16%:R).
  apply: flat_relerr => //; first exact: ler0n.
  rewrite mulrAC ler_pdivl_mulr ?ltr0n // mul1r.
  have -> : 40%:R / 3%:R - 13%:R = 1 / 3%:R :> F.
    by apply: (@mulIf _ 3%:R); rewrite ?pnatr_eq0 // mulrBl !divfK ?pnatr_eq0 // -natrM -natrB.
  by rewrite mulrAC mul1r ler_pdivr_mulr ?ltr0n // -natrM ler_nat.
move=> x; rewrite /bad4; case: (boolP ((40%:R <= x) && (x <= 42%:R))) => hx.
  have -> : flat 40%:R 42%:R x = 40%:R by rewrite /flat hx.
  have -> : flat 13%:R (40%:R / 3%:R) 40%:R = 40%:R.
    rewrite /flat [X in _ && X]lt_geF ?andbF //.
    by apply: lt_trans h403 _; rewrite ltr_nat.
  by have := r1 x; rewrite /flat hx.
by rewrite {2}/flat (negbTE hx); apply: r2.
Qed.

Theorem C86_constant_batch_refuted :
  exists rnd, [/\ {homo rnd : x y / x <= y}, relerr rnd (1 / 16%:R),
                  rnd 0 = 0, rnd 14%:R = 14%:R
                & exists2 st, rrun rnd [:: nseq 3 14%:R] st & ra_mu st = 13%:R].
Proof.
exists bad4.
have b42 : bad4 42%:R = 40%:R.
  rewrite /bad4 {2}/flat ler_nat lexx /= /flat [X in _ && X]lt_geF ?andbF //.
  by apply: lt_trans h403 _; rewrite ltr_nat.
have out x : (x < 13%:R) || (40%:R / 3%:R < x) -> (x < 40%:R) -> bad4 x = x.
  move=> h1 h2; rewrite /bad4 {2}/flat lt_geF //= /flat.
  by case/orP: h1 => h; [rewrite lt_geF | rewrite [X in _ && X]lt_geF ?andbF].
have b14 : bad4 14%:R = 14%:R by rewrite out ?ltr_nat // h403 orbT.
have b28 : bad4 28%:R = 28%:R.
  by rewrite out ?ltr_nat // (lt_trans h403) ?ltr_nat ?orbT.
have b0 : bad4 0 = 0 by rewrite out // ltr0n.
have b1 : bad4 1 = 1 by rewrite out // ?(ltr_nat _ 1).
have b13 : bad4 (40%:R / 3%:R) = 13%:R.
  rewrite /bad4 {2}/flat lt_geF /=; last by apply: lt_trans h403 _; rewrite ltr_nat.
  by rewrite /flat h133 lexx.
have b13' : bad4 13%:R = 13%:R.
  rewrite /bad4 {2}/flat lt_geF ?ltr_nat //= /flat lexx.
  by rewrite h133.
split=> //; [exact: bad4_mono | exact: bad4_relerr |].
have hs : sumv bad4 (nseq 3 14%:R) 40%:R.
  have -> : nseq 3 14%:R = [:: 14%:R; 14%:R] ++ [:: 14%:R] by [].
  have e42 : (42%:R : F) = 28%:R + 14%:R by rewrite -natrD.
  have e28 : (28%:R : F) = 14%:R + 14%:R by rewrite -natrD.
  rewrite -b42 e42; apply: SumAdd => //; last exact: Sum1.
  rewrite -b28 e28.
  by apply: (@SumAdd _ _ [:: _] [:: _]) => //; apply: Sum1.
have [q hq] : exists q, dotv bad4 [seq y * y | y <- rcentered bad4 (rbatch_mean bad4 40%:R 3) (nseq 3 14%:R)] q.
  elim: [seq _ | _ <- _] => [|y ys [a ha]]; first by exists 0; apply: Dot0.
  by eexists; apply: DotFma; apply: ha.
eexists.
  apply: (@RunS _ _ [::]); [exact: Run0 | by [] |].
  by exists 40%:R, q; split.
rewrite /= /rbatch_mean b13 /rmu_step /rdelta add0n divff ?pnatr_eq0 // b1 subr0.
by rewrite b13' mul1r b13' add0r b13'.
Qed.

(* ---- C87: forward error of the running mean -------------------------------- *)
Lemma exp1_ge1 u k : 0 <= u -> 1 <= (1 + u) ^+ k.
Proof. by move=> u0; apply: exprn_ege1; rewrite ler_addl. Qed.

Lemma exp1_mono u j k : 0 <= u -> (j <= k)%N -> (1 + u) ^+ j <= (1 + u) ^+ k.
Proof. by move=> u0 jk; apply: ler_weexpn2l; rewrite // ler_addl. Qed.

Lemma comp_err rnd u (g : F) (a e m : F) : relerr rnd u -> 0 <= u -> 1 <= g ->
  `|a - e| <= (g - 1) * m -> `|e| <= m -> `|rnd a - e| <= (g * (1 + u) - 1) * m.
Proof.
move=> hr u0 g1 h1 h2.
have ha : `|a| <= g * m.
  have -> : a = e + (a - e) by ring.
  apply: le_trans (ler_norm_add _ _) _.
  apply: le_trans (ler_add h2 h1) _.
  by rewrite mulrBl mul1r addrC subrK.
have -> : rnd a - e = (rnd a - a) + (a - e) by ring.
apply: le_trans (ler_norm_add _ _) _.
apply: le_trans (ler_add (hr a) h1) _.
apply: le_trans (ler_add (ler_wpmul2l u0 ha) (lexx _)) _.
by rewrite le_eqVlt; apply/orP; left; apply/eqP; ring.
Qed.

Lemma natk2 i j : (0 < i)%N -> (0 < j)%N ->
  (i.-1 <= i + j - 2)%N /\ (j.-1 <= i + j - 2)%N.
Proof. by move=> hi hj; split; lia. Qed.

Lemma natk1 i j : (0 < i)%N -> (0 < j)%N ->
  (i <= i + j - 1)%N /\ (j <= i + j - 1)%N.
Proof. by move=> hi hj; split; lia. Qed.

Lemma sumv_err rnd u xs a : relerr rnd u -> 0 <= u -> sumv rnd xs a ->
  `|a - \sum_(x <- xs) x| <= ((1 + u) ^+ (size xs).-1 - 1) * \sum_(x <- xs) `|x|.
Proof.
move=> hr u0; elim=> {xs a} [|x|xs ys a b nx ny _ IHa _ IHb|xs ys a pq _ IH].
- by rewrite !big_nil subrr normr0 mulr0.
- by rewrite !big_seq1 subrr normr0 /= subrr mul0r.
- set A := \sum_(x <- xs) `|x|; set Bs := \sum_(x <- ys) `|x|.
  have A0 : 0 <= A by apply: sumr_ge0.
  have B0 : 0 <= Bs by apply: sumr_ge0.
  rewrite !big_cat /= -/A -/Bs.
  set k := (size xs + size ys - 2)%N.
  have sx : (0 < size xs)%N by rewrite lt0n size_eq0.
  have sy : (0 < size ys)%N by rewrite lt0n size_eq0.
  have -> : (size (xs ++ ys)).-1 = k.+1 by rewrite size_cat /k; lia.
  rewrite exprSr; apply: comp_err => //; first exact: exp1_ge1.
    have -> : a + b - (\sum_(x <- xs) x + \sum_(x <- ys) x)
       = (a - \sum_(x <- xs) x) + (b - \sum_(x <- ys) x) by ring.
    apply: le_trans (ler_norm_add _ _) _; rewrite mulrDr.
    apply: ler_add.
      apply: le_trans IHa _; rewrite -/A ler_wpmul2r // ler_add2r exp1_mono //.
      exact: (natk2 sx sy).1.
    apply: le_trans IHb _; rewrite -/Bs ler_wpmul2r // ler_add2r exp1_mono //.
    exact: (natk2 sx sy).2.
  apply: le_trans (ler_norm_add _ _) _.
  by apply: ler_add; apply: ler_norm_sum.
- by rewrite -(perm_big _ pq) -(perm_big _ pq) -(perm_size pq).
Qed.

Lemma dotv_err rnd u ps a : relerr rnd u -> 0 <= u -> dotv rnd ps a ->
  `|a - \sum_(x <- ps) x| <= ((1 + u) ^+ size ps - 1) * \sum_(x <- ps) `|x|.
Proof.
move=> hr u0; elim=> {ps a} [|p|p ps a _ IH|xs ys a b nx ny _ IHa _ IHb|xs ys a pq _ IH].
- by rewrite !big_nil subrr normr0 mulr0.
- rewrite !big_seq1 /= expr1; have -> : 1 + u - 1 = u by ring.
  exact: hr.
- rewrite !big_cons [size _]/= exprSr [p + _]addrC.
  apply: comp_err => //; first exact: exp1_ge1.
    have -> : a + p - (\sum_(x <- ps) x + p) = a - \sum_(x <- ps) x by ring.
    apply: le_trans IH _; rewrite ler_wpmul2l ?subr_ge0 ?exp1_ge1 //.
    by rewrite ler_addr normr_ge0.
  rewrite [X in _ <= X]addrC; apply: le_trans (ler_norm_add _ _) _.
  by rewrite ler_add2r ler_norm_sum.
- set A := \sum_(x <- xs) `|x|; set Bs := \sum_(x <- ys) `|x|.
  have A0 : 0 <= A by apply: sumr_ge0.
  have B0 : 0 <= Bs by apply: sumr_ge0.
  rewrite !big_cat /= -/A -/Bs.
  set k := (size xs + size ys - 1)%N.
  have sx : (0 < size xs)%N by rewrite lt0n size_eq0.
  have sy : (0 < size ys)%N by rewrite lt0n size_eq0.
  have -> : size (xs ++ ys) = k.+1 by rewrite size_cat /k; lia.
  rewrite exprSr; apply: comp_err => //; first exact: exp1_ge1.
    have -> : a + b - (\sum_(x <- xs) x + \sum_(x <- ys) x)
       = (a - \sum_(x <- xs) x) + (b - \sum_(x <- ys) x) by ring.
    apply: le_trans (ler_norm_add _ _) _; rewrite mulrDr.
    apply: ler_add.
      apply: le_trans IHa _; rewrite -/A ler_wpmul2r // ler_add2r exp1_mono //.
      exact: (natk1 sx sy).1.
    apply: le_trans IHb _; rewrite -/Bs ler_wpmul2r // ler_add2r exp1_mono //.
    exact: (natk1 sx sy).2.
  apply: le_trans (ler_norm_add _ _) _.
  by apply: ler_add; apply: ler_norm_sum.
- by rewrite -(perm_big _ pq) -(perm_big _ pq) -(perm_size pq).
Qed.

Lemma rbatch_err rnd u B X s : relerr rnd u -> 0 <= u -> X != [::] ->
  {in X, forall x, `|x| <= B} -> sumv rnd X s ->
  `|rbatch_mean rnd s (size X) - avg X| <= ((1 + u) ^+ size X - 1) * B
  /\ `|avg X| <= B.
Proof.
move=> hr u0 nX hB hs.
have b0 : 0 < (size X)%:R :> F by rewrite ltr0n lt0n size_eq0.
have hsum : \sum_(x <- X) `|x| <= (size X)%:R * B.
  elim: (X) hB => [|x xs IH] hx; first by rewrite big_nil mul0r.
  rewrite big_cons [size _]/= mulrS mulrDl mul1r; apply: ler_add.
    by apply: hx; rewrite inE eqxx.
  by apply: IH => y hy; apply: hx; rewrite inE hy orbT.
have havg : `|avg X| <= (\sum_(x <- X) `|x|) / (size X)%:R.
  by rewrite /avg normf_div (gtr0_norm b0) ler_pmul2r ?invr_gt0 // ler_norm_sum.
have hm : (\sum_(x <- X) `|x|) / (size X)%:R <= B by rewrite ler_pdivr_mulr // mulrC.
split; last exact: le_trans havg hm.
have -> : size X = (size X).-1.+1 by rewrite prednK // lt0n size_eq0.
rewrite exprSr; apply: comp_err => //; first exact: exp1_ge1; last exact: le_trans havg hm.
rewrite prednK; last by rewrite lt0n size_eq0.
rewrite /avg -mulrBl normrM normfV (gtr0_norm b0) ler_pdivr_mulr //.
apply: le_trans (sumv_err hr u0 hs) _; rewrite -mulrA ler_wpmul2l ?subr_ge0 ?exp1_ge1 //.
by rewrite mulrC.
Qed.

(* three roundings: the weight, the difference and their product *)
Lemma prod_err rnd u (W D : F) : relerr rnd u -> 0 <= u ->
  `|rnd (rnd W * rnd D) - W * D| <= ((1 + u) ^+ 3 - 1) * (`|W| * `|D|).
Proof.
move=> hr u0; rewrite exprSr; apply: comp_err => //; first exact: exp1_ge1; last by rewrite normrM.
have -> : rnd W * rnd D - W * D = (rnd W - W) * (rnd D - D) + (rnd W - W) * D + W * (rnd D - D).
  by ring.
apply: le_trans (ler_norm_add _ _) _.
apply: le_trans (ler_add (ler_norm_add _ _) (lexx _)) _.
rewrite !normrM.
have -> : ((1 + u) ^+ 2 - 1) * (`|W| * `|D|)
   = (u * `|W|) * (u * `|D|) + (u * `|W|) * `|D| + `|W| * (u * `|D|) by ring.
apply: ler_add; first apply: ler_add.
- by apply: ler_pmul.
- by apply: ler_wpmul2r.
- by apply: ler_wpmul2l.
Qed.

Definition mean_const u (bmax m : nat) : F :=
  ((1 + u) ^+ bmax - 1) + 4%:R * ((1 + u) ^+ 3 - 1) + 3%:R * u * m%:R.

Lemma avg_cat (xs ys : seq F) : ys != [::] ->
  avg (xs ++ ys) = avg xs + (size ys)%:R / (size xs + size ys)%:R * (avg ys - avg xs).
Proof.
move=> ny; rewrite /avg big_cat size_cat /=.
have y0 : (size ys)%:R != 0 :> F by rewrite pnatr_eq0 size_eq0.
have n0 : (size xs + size ys)%:R != 0 :> F by rewrite pnatr_eq0 addn_eq0 !size_eq0 negb_and ny orbT.
case: xs n0 => [|x xs] n0.
  by rewrite big_nil !add0r mul0r add0r subr0 divff ?mul1r //= add0n.
have x0 : (size (x :: xs))%:R != 0 :> F by rewrite pnatr_eq0.
move: n0 x0 y0; rewrite natrD.
set X := \sum_(_ <- _) _; set Y := \sum_(_ <- _) _.
move: (size _)%:R (size ys)%:R X Y => a b X Y n0 a0 b0.
by field; rewrite n0 a0 b0.
Qed.

Theorem C87_mean_forward_error rnd u B (bmax : nat) h st :
  relerr rnd u -> 0 <= u -> 0 <= B -> rrun rnd h st ->
  {in h, forall X, (size X <= bmax)%N} ->
  {in flatten h, forall x, `|x| <= B} ->
  mean_const u bmax (size h) <= 1 ->
  `|ra_mu st - avg (flatten h)| <= mean_const u bmax (size h) * B.
Proof.
move=> hr u0 B0 hrun hb hB hc.
suff : [/\ ra_n st = size (flatten h), `|avg (flatten h)| <= B
         & `|ra_mu st - avg (flatten h)| <= mean_const u bmax (size h) * B] by case.
set be := (1 + u) ^+ bmax - 1; set et := (1 + u) ^+ 3 - 1.
have be0 : 0 <= be by rewrite subr_ge0 exp1_ge1.
have et0 : 0 <= et by rewrite subr_ge0 exp1_ge1.
have mc m : mean_const u bmax m = be + 4%:R * et + 3%:R * u * m%:R by [].
have um m : 0 <= 3%:R * u * m%:R by rewrite !mulr_ge0 ?ler0n.
have et4 : 0 <= 4%:R * et by rewrite mulr_ge0 ?ler0n.
have mc0 m : 0 <= mean_const u bmax m by rewrite mc; apply: addr_ge0 => //; apply: addr_ge0.
elim: hrun hb hB hc => {h st} [|h st X st' hrun IH nX [s [q [hs _ ->]]]] hb hB hc.
  rewrite /= /avg big_nil mul0r subrr normr0; split=> //.
  by rewrite mulr_ge0.
have hX : (size X <= bmax)%N by apply: hb; rewrite mem_rcons inE eqxx.
have ef : flatten (rcons h X) = flatten h ++ X by rewrite -cats1 flatten_cat /= cats0.
rewrite ef in hB *; rewrite size_rcons in hc *.
have mcS : mean_const u bmax (size h).+1 = mean_const u bmax (size h) + 3%:R * u.
  by rewrite !mc mulrS; ring.
have hc' : mean_const u bmax (size h) <= 1.
  by apply: le_trans hc; rewrite mcS ler_addl mulr_ge0 ?ler0n.
have [en ha he] : [/\ ra_n st = size (flatten h), `|avg (flatten h)| <= B
         & `|ra_mu st - avg (flatten h)| <= mean_const u bmax (size h) * B].
  apply: IH => // Y hY; first by apply: hb; rewrite mem_rcons inE hY orbT.
  by apply: hB; rewrite mem_cat hY.
have hXB : {in X, forall x, `|x| <= B} by move=> x hx; apply: hB; rewrite mem_cat hx orbT.
have [hbm hba] := rbatch_err hr u0 nX hXB hs.
rewrite /= en; set bm := rbatch_mean rnd s (size X) in hbm *.
pose W : F := (size X)%:R / (size (flatten h) + size X)%:R.
have n0 : 0 < (size (flatten h) + size X)%:R :> F.
  by rewrite ltr0n addn_gt0 [X in _ || X]lt0n size_eq0 nX orbT.
have W0 : 0 <= W by rewrite divr_ge0 ?ler0n.
have W1 : W <= 1 by rewrite ler_pdivr_mulr // mul1r ler_nat leq_addl.
have V0 : 0 <= 1 - W by rewrite subr_ge0.
have {}hbm : `|bm - avg X| <= be * B.
  by apply: le_trans hbm _; rewrite ler_wpmul2r // ler_add2r exp1_mono.
rewrite /rmu_step avg_cat // -/W; clearbody W.
set a := avg (flatten h) in ha he *; set b := avg X in hba hbm *; set mu := ra_mu st in he *.
set c := mean_const u bmax (size h) in he hc' mcS *.
clearbody a b mu bm.
have hmu : `|mu| <= 2%:R * B.
  have -> : mu = a + (mu - a) by ring.
  apply: le_trans (ler_norm_add _ _) _; have -> : 2%:R * B = B + 1 * B by ring.
  apply: ler_add => //; apply: le_trans he _; exact: ler_wpmul2r.
have hbe : be <= 1.
  by apply: le_trans hc'; rewrite /c mc -addrA ler_addl addr_ge0.
have hbmB : `|bm| <= 2%:R * B.
  have -> : bm = b + (bm - b) by ring.
  apply: le_trans (ler_norm_add _ _) _; have -> : 2%:R * B = B + 1 * B by ring.
  apply: ler_add => //; apply: le_trans hbm _; exact: ler_wpmul2r.
have het : 4%:R * et <= 1.
  by apply: le_trans hc'; rewrite /c mc addrAC ler_addr addr_ge0.
split; first by rewrite size_cat.
  have -> : a + W * (b - a) = (1 - W) * a + W * b by ring.
  apply: le_trans (ler_norm_add _ _) _; rewrite !normrM (ger0_norm V0) (ger0_norm W0).
  have e : B = (1 - W) * B + W * B by ring.
  by rewrite [X in _ <= X]e; apply: ler_add; apply: ler_wpmul2l.
rewrite /rdelta mcS.
set p := rnd (rnd W * rnd (bm - mu)).
have hp : `|p - W * (bm - mu)| <= W * (4%:R * et * B).
  apply: le_trans (prod_err _ _ hr u0) _; rewrite (ger0_norm W0) -/et.
  have -> : W * (4%:R * et * B) = et * (W * (2%:R * B + 2%:R * B)) by ring.
  apply: ler_wpmul2l => //; apply: ler_wpmul2l => //.
  by apply: le_trans (ler_norm_sub _ _) _; apply: ler_add.
have ht : `|mu + p| <= 3%:R * B.
  have -> : mu + p = (1 - W) * mu + W * bm + (p - W * (bm - mu)) by ring.
  apply: le_trans (ler_norm_add _ _) _.
  apply: le_trans (ler_add (ler_norm_add _ _) hp) _.
  rewrite !normrM (ger0_norm V0) (ger0_norm W0).
  have -> : 3%:R * B = (1 - W) * (2%:R * B) + W * (2%:R * B) + 1 * (1 * B) by ring.
  apply: ler_add; first by apply: ler_add; apply: ler_wpmul2l.
  by apply: ler_pmul; rewrite ?mulr_ge0 ?ler0n // ler_wpmul2r.
have -> : rnd (mu + p) - (a + W * (b - a)) =
   (rnd (mu + p) - (mu + p)) + ((1 - W) * (mu - a) + W * (bm - b) + (p - W * (bm - mu))).
  by ring.
apply: le_trans (ler_norm_add _ _) _.
apply: le_trans (ler_add (hr _) (ler_norm_add _ _)) _.
apply: le_trans (ler_add (ler_wpmul2l u0 ht) (ler_add (ler_norm_add _ _) hp)) _.
rewrite !normrM (ger0_norm V0) (ger0_norm W0).
have h1 : (1 - W) * `|mu - a| <= (1 - W) * (c * B) by apply: ler_wpmul2l.
have h2 : W * `|bm - b| <= W * (be * B) by apply: ler_wpmul2l.
apply: le_trans (ler_add (lexx _) (ler_add (ler_add h1 h2) (lexx _))) _.
have -> : u * (3%:R * B) + ((1 - W) * (c * B) + W * (be * B) + W * (4%:R * et * B))
  = (c + 3%:R * u) * B - W * ((c - (be + 4%:R * et)) * B) by ring.
rewrite ler_subl_addr ler_addl !mulr_ge0 // /c mc.
by rewrite addrC addKr.
Qed.

(* ---- C88: integer data is handled exactly ----------------------------------- *)
Definition isint x : Prop := exists z : int, x = z%:~R.

Lemma isint0 : isint 0. Proof. by exists 0; rewrite mulr0z. Qed.
Lemma isintD x y : isint x -> isint y -> isint (x + y).
Proof. by move=> [a ->] [b ->]; exists (a + b); rewrite intrD. Qed.
Lemma isintM x y : isint x -> isint y -> isint (x * y).
Proof. by move=> [a ->] [b ->]; exists (a * b); rewrite intrM. Qed.

Lemma rnd_int rnd M x : int_exact rnd M -> isint x -> `|x| <= M%:R -> rnd x = x.
Proof.
move=> hM [z ->] hz; apply: hM.
move: hz; rewrite -intr_norm -[M%:R]/(M%:Z%:~R) ler_int; lia.
Qed.

Lemma isint_sum (xs : seq F) : {in xs, forall x, isint x} -> isint (\sum_(x <- xs) x).
Proof.
elim: xs => [|x xs IH] h; first by rewrite big_nil; apply: isint0.
rewrite big_cons; apply: isintD; first by apply: h; rewrite inE eqxx.
by apply: IH => y hy; apply: h; rewrite inE hy orbT.
Qed.

Lemma sumv_int rnd M xs a : int_exact rnd M -> sumv rnd xs a ->
  {in xs, forall x, isint x} -> \sum_(x <- xs) `|x| <= M%:R -> a = \sum_(x <- xs) x.
Proof.
move=> hM; elim=> {xs a} [|x|xs ys a b nx ny _ IHa _ IHb|xs ys a pq _ IH] h.
- by rewrite !big_nil.
- by rewrite !big_seq1.
- rewrite !big_cat /= => hs.
  have hx : {in xs, forall x, isint x} by move=> z hz; apply: h; rewrite mem_cat hz.
  have hy : {in ys, forall x, isint x} by move=> z hz; apply: h; rewrite mem_cat hz orbT.
  rewrite IHa ?IHb //.
  + apply: (rnd_int hM); first by apply: isintD; apply: isint_sum.
    apply: le_trans hs; apply: le_trans (ler_norm_add _ _) _.
    by apply: ler_add; apply: ler_norm_sum.
  + by apply: le_trans hs; rewrite ler_addr sumr_ge0.
  + by apply: le_trans hs; rewrite ler_addl sumr_ge0.
- rewrite -(perm_big _ pq) -(perm_big _ pq) => hs; apply: IH => // z hz.
  by apply: h; rewrite -(perm_mem pq).
Qed.

Lemma dotv_int rnd M ps a : int_exact rnd M -> dotv rnd ps a ->
  {in ps, forall x, isint x} -> \sum_(x <- ps) `|x| <= M%:R -> a = \sum_(x <- ps) x.
Proof.
move=> hM; elim=> {ps a} [|p|p ps a _ IH|xs ys a b nx ny _ IHa _ IHb|xs ys a pq _ IH] h.
- by rewrite !big_nil.
- rewrite !big_seq1 => hp; apply: (rnd_int hM) => //.
  by apply: h; rewrite inE.
- rewrite !big_cons => hs.
  have hp : {in ps, forall x, isint x} by move=> z hz; apply: h; rewrite inE hz orbT.
  rewrite IH //; last by apply: le_trans hs; rewrite ler_addr.
  rewrite [RHS]addrC; apply: (rnd_int hM).
    by apply: isintD; [apply: isint_sum | apply: h; rewrite inE eqxx].
  apply: le_trans hs; rewrite [X in _ <= X]addrC; apply: le_trans (ler_norm_add _ _) _.
  by rewrite ler_add2r ler_norm_sum.
- rewrite !big_cat /= => hs.
  have hx : {in xs, forall x, isint x} by move=> z hz; apply: h; rewrite mem_cat hz.
  have hy : {in ys, forall x, isint x} by move=> z hz; apply: h; rewrite mem_cat hz orbT.
  rewrite IHa ?IHb //.
  + apply: (rnd_int hM); first by apply: isintD; apply: isint_sum.
    apply: le_trans hs; apply: le_trans (ler_norm_add _ _) _.
    by apply: ler_add; apply: ler_norm_sum.
  + by apply: le_trans hs; rewrite ler_addr sumr_ge0.
  + by apply: le_trans hs; rewrite ler_addl sumr_ge0.
- rewrite -(perm_big _ pq) -(perm_big _ pq) => hs; apply: IH => // z hz.
  by apply: h; rewrite -(perm_mem pq).
Qed.

Definition square (A : seq (seq F)) (n : nat) : Prop :=
  size A = n /\ {in A, forall r, size r = n}.

(* the exact quadratic form and the exact trace *)
Definition qform (A : seq (seq F)) (v : seq F) : F :=
  \sum_(i < size A) v`_i * \sum_(j < size A) (nth [::] A i)`_j * v`_j.
Definition tr (A : seq (seq F)) : F := \sum_(i < size A) (nth [::] A i)`_i.

Lemma zip_sum (f : F -> F -> F) (xs ys : seq F) n : size xs = n -> size ys = n ->
  \sum_(p <- zip xs ys) f p.1 p.2 = \sum_(i < n) f xs`_i ys`_i.
Proof.
move=> sx sy; rewrite (big_nth (0, 0)) size_zip sx sy minnn big_mkord.
by apply: eq_bigr => i _; rewrite nth_zip // sx sy.
Qed.

(* a probe with a sign vector, for any matrix *)
Theorem C87_quad_forward_error rnd u A v r n : relerr rnd u -> 0 <= u ->
  square A n -> size v = n -> {in v, forall x, `|x| = 1} -> rquad rnd A v r ->
  `|r - qform A v| <= ((1 + u) ^+ (2 * n) - 1) * \sum_(i < n) \sum_(j < n) `|(nth [::] A i)`_j|.
Proof.
move=> hr u0 [sA sr] sv hv [w [sw hw hd]].
have v1 i : (i < n)%N -> `|v`_i| = 1 by move=> hi; apply: hv; rewrite mem_nth // sv.
have srow i : (i < n)%N -> size (nth [::] A i) = n by move=> hi; apply: sr; rewrite mem_nth // sA.
set R := fun i : nat => \sum_(j < n) `|(nth [::] A i)`_j|.
have R0 i : 0 <= R i by apply: sumr_ge0.
set e := fun i : nat => \sum_(j < n) (nth [::] A i)`_j * v`_j.
have he i : (i < n)%N -> `|e i| <= R i.
  move=> hi; apply: le_trans (ler_norm_sum _ _ _) _; apply: ler_sum => j _.
  by rewrite normrM v1 ?mulr1.
have hwi i : (i < n)%N -> `|w`_i - e i| <= ((1 + u) ^+ n - 1) * R i.
  move=> hi; have := dotv_err hr u0 (hw i _); rewrite sA => /(_ hi).
  rewrite size_map size_zip srow // sv minnn !big_map.
  rewrite (zip_sum (fun a b => a * b) (srow _ hi) sv).
  rewrite (zip_sum (fun a b => `|a * b|) (srow _ hi) sv).
  have -> : \sum_(j < n) `|(nth [::] A i)`_j * v`_j| = R i; last by [].
  by apply: eq_bigr => j _; rewrite normrM v1 // mulr1.
have wR i : (i < n)%N -> `|w`_i| <= (1 + u) ^+ n * R i.
  move=> hi; have -> : w`_i = e i + (w`_i - e i) by ring.
  apply: le_trans (ler_norm_add _ _) _; apply: le_trans (ler_add (he _ hi) (hwi _ hi)) _.
  by rewrite mulrBl mul1r addrC subrK.
have sw' : size w = n by rewrite sw.
have h2 := dotv_err hr u0 hd; rewrite size_map size_zip sv sw' minnn !big_map in h2.
rewrite (zip_sum (fun a b => a * b) sv sw') (zip_sum (fun a b => `|a * b|) sv sw') in h2.
have q1 : `|\sum_(i < n) v`_i * w`_i - qform A v| <= ((1 + u) ^+ n - 1) * \sum_(i < n) R i.
  rewrite /qform sA -sumrB mulr_sumr.
  apply: le_trans (ler_norm_sum _ _ _) _; apply: ler_sum => i _.
  by rewrite -mulrBr normrM v1 // mul1r; apply: hwi.
have q2 : \sum_(i < n) `|v`_i * w`_i| <= (1 + u) ^+ n * \sum_(i < n) R i.
  rewrite mulr_sumr; apply: ler_sum => i _; rewrite normrM v1 // mul1r; exact: wR.
have -> : r - qform A v = (r - \sum_(i < n) v`_i * w`_i) + (\sum_(i < n) v`_i * w`_i - qform A v).
  by ring.
apply: le_trans (ler_norm_add _ _) _; apply: le_trans (ler_add h2 q1) _.
have g1 : 0 <= (1 + u) ^+ n - 1 by rewrite subr_ge0 exp1_ge1.
apply: le_trans (ler_add (ler_wpmul2l g1 q2) (lexx _)) _.
rewrite mul2n -addnn exprD le_eqVlt; apply/orP; left; apply/eqP.
rewrite -/R; move: ((1 + u) ^+ n) (\sum_(i < n) R i) => a b; ring.
Qed.

(* a probe of an integer matrix with a sign vector is exact *)
Theorem C88_quad_exact rnd (M : nat) A v r n :
  int_exact rnd M -> square A n -> {in flatten A, forall x, isint x} ->
  \sum_(i < n) \sum_(j < n) `|(nth [::] A i)`_j| <= M%:R ->
  size v = n -> {in v, forall x, x = 1 \/ x = -1} ->
  rquad rnd A v r -> r = qform A v.
Proof.
move=> hM [sA sr] hA hS sv hv [w [sw hw hd]].
have vs i : (i < n)%N -> v`_i = 1 \/ v`_i = -1 by move=> hi; apply: hv; rewrite mem_nth // sv.
have v1 i : (i < n)%N -> `|v`_i| = 1 by move=> /vs[] ->; rewrite ?normrN normr1.
have vi i : (i < n)%N -> isint v`_i.
  by move=> /vs[] ->; [exists 1 | exists (-1)]; rewrite ?mulr1z ?mulrNz.
have srow i : (i < n)%N -> size (nth [::] A i) = n by move=> hi; apply: sr; rewrite mem_nth // sA.
have Ai i j : (i < n)%N -> (j < n)%N -> isint (nth [::] A i)`_j.
  move=> hi hj; apply: hA; apply/flattenP; exists (nth [::] A i); first by rewrite mem_nth // sA.
  by rewrite mem_nth // srow.
set R := fun i : nat => \sum_(j < n) `|(nth [::] A i)`_j|.
have R0 i : 0 <= R i by apply: sumr_ge0.
have RM i : (i < n)%N -> R i <= M%:R.
  move=> hi; apply: le_trans hS; rewrite (bigD1 (Ordinal hi)) //= -/(R i) ler_addl.
  by apply: sumr_ge0 => j _; apply: sumr_ge0.
have ew i : (i < n)%N -> w`_i = \sum_(j < n) (nth [::] A i)`_j * v`_j.
  move=> hi; rewrite (dotv_int hM (hw i _)) ?sA //.
  - by rewrite big_map (zip_sum (fun a b => a * b) (srow _ hi) sv).
  - move=> x /mapP[p hp ->]; have /(nthP (0, 0))[k] := hp.
    rewrite size_zip srow // sv minnn => hk <-; rewrite nth_zip ?srow ?sv //=.
    by apply: isintM; [apply: Ai | apply: vi].
  - rewrite big_map (zip_sum (fun a b => `|a * b|) (srow _ hi) sv).
    have -> : \sum_(j < n) `|(nth [::] A i)`_j * v`_j| = R i; last exact: RM.
    by apply: eq_bigr => j _; rewrite normrM v1 // mulr1.
have wi i : (i < n)%N -> isint w`_i.
  move=> hi; rewrite ew // -(big_mkord predT (fun j => (nth [::] A i)`_j * v`_j)).
  rewrite -(big_map (fun j => (nth [::] A i)`_j * v`_j) predT id); apply: isint_sum => x /mapP[j].
  by rewrite mem_index_iota => /andP[_ hj] ->; apply: isintM; [apply: Ai | apply: vi].
have sw' : size w = n by rewrite sw.
rewrite (dotv_int hM hd).
- rewrite big_map (zip_sum (fun a b => a * b) sv sw') /qform sA.
  by apply: eq_bigr => i _; rewrite ew.
- move=> x /mapP[p hp ->]; have /(nthP (0, 0))[k] := hp.
  rewrite size_zip sv sw' minnn => hk <-; rewrite nth_zip ?sw' ?sv //=.
  by apply: isintM; [apply: vi | apply: wi].
- rewrite big_map (zip_sum (fun a b => `|a * b|) sv sw'); apply: le_trans hS.
  apply: ler_sum => i _; rewrite normrM v1 // mul1r ew //.
  apply: le_trans (ler_norm_sum _ _ _) _; apply: ler_sum => j _.
  by rewrite normrM v1 // mulr1.
Qed.

(* constant integer samples in any batches *)
Lemma sumv_const x b : \sum_(y <- nseq b x) y = b%:R * x.
Proof. by rewrite big_nseq iter_addr_0 mulr_natl. Qed.

Theorem C88_constant_int_exact rnd (M : nat) (t : int) h st :
  int_exact rnd M -> (0 < M)%N ->
  {in h, forall X, X = nseq (size X) t%:~R /\ (size X * absz t <= M)%N} ->
  rrun rnd h st -> h != [::] -> st = MkRacc (size (flatten h)) t%:~R 0.
Proof.
move=> hM M0 hh hr.
have r0 : rnd 0 = 0 by have := hM 0 isT; rewrite mulr0z.
have r1 : rnd 1 = 1 by have := hM 1 M0; rewrite mulr1z.
suff : st = if h is [::] then racc0 F else MkRacc (size (flatten h)) t%:~R 0 by case: (h).
elim: hr hh => {h st} [|h st X st' _ IH nX [s [q [hs hq ->]]]] // hh.
have {}IH := IH (fun Y hY => hh Y ltac:(by rewrite mem_rcons inE hY orbT)).
have [eX hX] : X = nseq (size X) t%:~R /\ (size X * absz t <= M)%N.
  by apply: hh; rewrite mem_rcons inE eqxx.
have b0 : (size X)%:R != 0 :> F by rewrite pnatr_eq0 size_eq0.
have tM : (absz t <= M)%N.
  by apply: leq_trans hX; rewrite leq_pmull // lt0n size_eq0.
have rt : rnd t%:~R = t%:~R by apply: hM.
have es : s = (size X)%:R * t%:~R.
  rewrite (sumv_int hM hs); first by rewrite {1}eX sumv_const.
    by move=> x; rewrite eX mem_nseq => /andP[_ /eqP ->]; exists t.
  rewrite eX big_nseq iter_addr_0 -intr_norm.
  have -> : `|t| = (absz t)%:Z by lia.
  by rewrite -[_%:~R]/((absz t)%:R) -mulrnA ler_nat mulnC.
have ebm : rbatch_mean rnd s (size X) = t%:~R.
  by rewrite /rbatch_mean es mulrAC divff // mul1r.
have eq0 : q = 0.
  apply: (dotv_zero r0 hq) => p /mapP[y /mapP[x hx ->] ->].
  move: hx; rewrite eX mem_nseq => /andP[_ /eqP ->].
  by rewrite -eX ebm subrr r0 mul0r.
have -> : flatten (rcons h X) = flatten h ++ X by rewrite -cats1 flatten_cat /= cats0.
have -> : (if rcons h X is [::] then racc0 F else MkRacc (size (flatten h ++ X)) t%:~R 0)
          = MkRacc (size (flatten h ++ X)) t%:~R 0 by case: (h).
rewrite ebm eq0 IH size_cat.
case: h {IH hh} => [|y h] /=.
  rewrite /rmu_step /rS_step /rdelta subr0 rt add0n divff // r1 mul1r rt add0r rt.
  by rewrite mul0n mul0r r0 mul0r r0 addr0 r0 addr0 r0.
by rewrite /rmu_step /rS_step /rdelta subrr r0 !mulr0 r0 mulr0 r0 !addr0 rt r0 addr0 r0.
Qed.

(* Hutchinson with sign probes on an integer diagonal matrix *)
Theorem C88_diagonal_exact rnd (M : nat) A n (t : int) h st (score : F) :
  int_exact rnd M -> (0 < M)%N -> square A n -> {in flatten A, forall x, isint x} ->
  (forall i j, i <> j -> (nth [::] A i)`_j = 0) ->
  \sum_(i < n) `|(nth [::] A i)`_i| <= M%:R -> tr A = t%:~R ->
  {in h, forall X, (size X * absz t <= M)%N /\
     {in X, forall x, exists v, [/\ size v = n, {in v, forall y, y = 1 \/ y = -1}
                                  & rquad rnd A v x]}} ->
  rrun rnd h st -> (1 < size (flatten h))%N ->
  [/\ ra_mu st = tr A, rcov_call rnd st 1 = Fin 0 & rmargin rnd score st = Fin 0].
Proof.
move=> hM M0 sq hA hdg hS et hh hr h1.
have r0 : rnd 0 = 0 by have := hM 0 isT; rewrite mulr0z.
have dsum (f : nat -> F) (i : nat) : (i < n)%N -> (forall j, i <> j -> f j = 0) ->
    \sum_(j < n) f j = f i.
  move=> hi hf; rewrite (bigD1 (Ordinal hi)) //= big1 ?addr0 // => j /eqP hj.
  by apply: hf => e; apply: hj; apply: val_inj.
have est : st = MkRacc (size (flatten h)) t%:~R 0.
  apply: (C88_constant_int_exact hM M0) (hr) _; last by case: (h) h1.
  move=> X hX; have [hb hv] := hh X hX; split=> //.
  have : all (pred1 (t%:~R : F)) X.
    apply/allP => x hx; have [v [sv hs hq]] := hv x hx.
    have -> : x = qform A v.
      apply: (C88_quad_exact hM sq hA _ sv hs hq); apply: le_trans hS.
      apply: ler_sum => i _; rewrite (dsum (fun j => `|(nth [::] A i)`_j|) i) //.
      by move=> j hj; rewrite hdg // normr0.
    apply/eqP; rewrite -et /qform /tr sq.1; apply: eq_bigr => i _.
    rewrite (dsum (fun j => (nth [::] A i)`_j * v`_j) i) //; last first.
      by move=> j hj; rewrite hdg // mul0r.
    rewrite mulrCA; have : v`_i \in v by rewrite mem_nth // sv.
    by move/hs => [] ->; rewrite ?mulrNN mulr1 ?mulr1.
  by move/all_pred1P.
have ec : rcov_call rnd st 1 = Fin 0.
  by rewrite /rcov_call est /= leqNgt h1 /= mul0r r0.
split=> //; first by rewrite est et.
by rewrite /rmargin /rstd_error ec /= ltxx sqrtr0 r0 mul0r r0 mulr0 r0.
Qed.

(* ---- every history has a run; concrete instances ---------------------------- *)
Lemma dotv_total rnd ps : exists a, dotv rnd ps a.
Proof.
elim: ps => [|p ps [a ha]]; first by exists 0; apply: Dot0.
by eexists; apply: DotFma; apply: ha.
Qed.

Lemma sumv_total rnd xs : exists a, sumv rnd xs a.
Proof.
elim: xs => [|x [|y xs] [a ha]]; first by exists 0; apply: Sum0.
  by exists x; apply: Sum1.
by eexists; apply: (@SumAdd _ _ [:: x]) => //; [apply: Sum1 | apply: ha].
Qed.

Lemma rrun_total rnd h : {in h, forall X, X != [::]} -> exists st, rrun rnd h st.
Proof.
elim/last_ind: h => [|h X IH] hh; first by eexists; apply: Run0.
have [st hst] : exists st, rrun rnd h st.
  by apply: IH => Y hY; apply: hh; rewrite mem_rcons inE hY orbT.
have [s hs] := sumv_total rnd X.
have [q hq] := dotv_total rnd [seq y * y | y <- rcentered rnd (rbatch_mean rnd s (size X)) X].
eexists; apply: (RunS hst); first by apply: hh; rewrite mem_rcons inE eqxx.
by exists s, q; split.
Qed.

Lemma bad4_sign : keeps_sign bad4.
Proof.
move=> x x0; have := bad4_mono x0.
have -> : bad4 0 = 0; last by [].
rewrite /bad4 {2}/flat lt_geF ?ltr0n //= /flat lt_geF ?ltr0n //.
Qed.

(* a rounding that is not exact and data that is not constant *)
Example C86_ex :
  exists st, [/\ keeps_sign bad4, rrun bad4 [:: [:: 14%:R; 28%:R]; [:: 13%:R]] st
    & exists2 m, rmargin bad4 2%:R st = Fin m & 0 <= m].
Proof.
have [st hst] : exists st, rrun bad4 [:: [:: 14%:R; 28%:R]; [:: 13%:R]] st.
  by apply: rrun_total => X; rewrite !inE => /orP[] /eqP ->.
exists st; split=> //; first exact: bad4_sign.
by apply: (C86_margin_defined bad4_sign _ hst) => //; apply: ler0n.
Qed.

Example C86_exact_results_ex :
  exists2 st, rrun (@id F) [:: [:: 1; 3%:R]; [:: 5%:R]] st
    & ra_mu st = 3%:R /\ rcov_call (@id F) st 1 = Fin 4%:R.
Proof.
have [st hst] : exists st, rrun (@id F) [:: [:: 1; 3%:R]; [:: 5%:R]] st.
  by apply: rrun_total => X; rewrite !inE => /orP[] /eqP ->.
exists st => //; have [_ -> -> _] := C86_exact_results 1 0 hst isT.
have -> : avg (flatten [:: [:: 1; 3%:R]; [:: 5%:R]]) = 3%:R :> F.
  by rewrite /avg /= !big_cons big_nil; field; rewrite ?pnatr_eq0.
rewrite [(size _ - 1)%N](_ : _ = 2%N) //.
by split=> //=; rewrite !big_cons big_nil; congr Fin; field; rewrite ?pnatr_eq0.
Qed.

(* every result too large by a factor 33/32 *)
Definition up32 x : F := x * (1 + 32%:R^-1).

Lemma up32_relerr : relerr up32 32%:R^-1.
Proof.
move=> x; have -> : up32 x - x = 32%:R^-1 * x by rewrite /up32; ring.
by rewrite normrM ger0_norm // invr_ge0 ler0n.
Qed.

Example C87_ex :
  exists2 st, rrun up32 [:: [:: 1; 2%:R]; [:: 3%:R]] st
    & `|ra_mu st - 2%:R| <= 25%:R / 32%:R * 3%:R.
Proof.
have [st hst] : exists st, rrun up32 [:: [:: 1; 2%:R]; [:: 3%:R]] st.
  by apply: rrun_total => X; rewrite !inE => /orP[] /eqP ->.
exists st => //.
set w := 32%:R^-1 : F.
have u0 : 0 <= w by rewrite invr_ge0 ler0n.
have u4 : w * 4%:R <= 1 by rewrite mulrC ler_pdivr_mulr ?ltr0n // mul1r ler_nat.
have c4 : mean_const w 2 2 <= 25%:R * w.
  rewrite /mean_const -subr_ge0.
  have -> : 25%:R * w - ((1 + w) ^+ 2 - 1 + 4%:R * ((1 + w) ^+ 3 - 1) + 3%:R * w * 2%:R)
     = w * ((1 - w * 4%:R) * (5%:R + w) + (w * 6%:R)) by ring.
  apply: mulr_ge0 => //; apply: addr_ge0; last by rewrite mulr_ge0 ?ler0n.
  by apply: mulr_ge0; [rewrite subr_ge0 | apply: addr_ge0; rewrite ?ler0n].
have w1 : 25%:R * w <= 1 by rewrite ler_pdivr_mulr ?ltr0n // mul1r ler_nat.
have := C87_mean_forward_error (B := 3%:R) (bmax := 2) up32_relerr u0 _ hst.
have -> : avg (flatten [:: [:: 1; 2%:R]; [:: 3%:R]]) = 2%:R :> F.
  by rewrite /avg /= !big_cons big_nil; field; rewrite ?pnatr_eq0.
move=> /(_ (ler0n _ _)) H; apply: le_trans (H _ _ _) _.
- by move=> X; rewrite !inE => /orP[] /eqP ->.
- by move=> x; rewrite !inE => /or3P[] /eqP ->; rewrite ger0_norm ?ler0n ?ler01 ?ler_nat ?(ler_nat _ 1).
- exact: le_trans c4 w1.
- by apply: (le_trans (ler_wpmul2r _ c4)); rewrite ?ler0n.
Qed.

Lemma bad4_int : int_exact bad4 40.
Proof.
move=> z hz; have z40 : z%:~R <= 40%:R :> F by rewrite -[40%:R]/(40%:Z%:~R) ler_int; lia.
have e1 : flat 40%:R 42%:R z%:~R = z%:~R :> F.
  by rewrite /flat; case: ifP => // /andP[h _]; apply/eqP; rewrite eq_le z40 h.
rewrite /bad4 e1 /flat; case: ifP => // /andP[h1 h2].
apply/eqP; rewrite eq_le h1 /= -[13%:R]/(13%:Z%:~R) ler_int.
have : z%:~R < 14%:R :> F by apply: le_lt_trans h2 h403.
by rewrite -[14%:R]/(14%:Z%:~R) ltr_int; lia.
Qed.

Example C88_ex :
  let A : seq (seq F) := [:: [:: 2%:R; 0]; [:: 0; - 3%:R]] in
  let v : seq F := [:: 1; -1] in
  exists2 x, rquad bad4 A v x &
  exists2 st, rrun bad4 [:: [:: x; x]; [:: x]] st
            & ra_mu st = -1 /\ rmargin bad4 2%:R st = Fin 0.
Proof.
move=> A v.
have [a ha] := dotv_total bad4 [seq p.1 * p.2 | p <- zip (nth [::] A 0) v].
have [b hb] := dotv_total bad4 [seq p.1 * p.2 | p <- zip (nth [::] A 1) v].
have [x hx] := dotv_total bad4 [seq p.1 * p.2 | p <- zip v [:: a; b]].
have hq : rquad bad4 A v x.
  by exists [:: a; b]; split=> // -[|[|i]].
exists x => //.
have [st hst] : exists st, rrun bad4 [:: [:: x; x]; [:: x]] st.
  by apply: rrun_total => X; rewrite !inE => /orP[] /eqP ->.
exists st => //.
have etr : tr A = (-1)%:~R.
  by rewrite /tr !big_ord_recl big_ord0 /= mulrNz mulr1z; ring.
have hv : {in v, forall y, y = 1 \/ y = -1}.
  by move=> y; rewrite !inE => /orP[] /eqP ->; [left | right].
have h1 : square A 2 by split=> // r; rewrite !inE => /orP[] /eqP ->.
have h2 : {in flatten A, forall y, isint y}.
  move=> y; rewrite !inE => /or4P[] /eqP ->; try exact: isint0.
    by exists 2%:Z.
  by exists (- 3%:Z); rewrite mulrNz.
have h3 i j : i <> j -> (nth [::] A i)`_j = 0.
  by move: i j => [|[|i]] [|[|j]] //=; rewrite ?nth_nil ?nth_default.
have h4 : \sum_(i < 2) `|(nth [::] A i)`_i| <= 40%:R.
  rewrite !big_ord_recl big_ord0 /= normrN !ger0_norm ?ler0n // addr0 -natrD.
  by rewrite ler_nat.
have h5 : {in [:: [:: x; x]; [:: x]], forall X, (size X * absz (-1)%Z <= 40)%N /\
     {in X, forall x, exists v, [/\ size v = 2%N, {in v, forall y, y = 1 \/ y = -1}
                                  & rquad bad4 A v x]}}.
  move=> X; rewrite !inE => /orP[] /eqP ->; split=> // y; rewrite !inE => h;
    exists v; split=> //.
    by have /orP[/eqP ->|/eqP ->] := h.
  by have /eqP -> := h.
have [-> _ ->] := C88_diagonal_exact 2%:R bad4_int isT h1 h2 h3 h4 etr h5 hst isT.
by rewrite etr mulrNz mulr1z.
Qed.

End Props.

Print Assumptions C86_variance_nonneg.
Print Assumptions C86_margin_defined.
Print Assumptions C86_exact_arithmetic.
Print Assumptions C86_exact_results.
Print Assumptions C86_constant_exact.
Print Assumptions C86_constant_batch_refuted.
Print Assumptions C87_mean_forward_error.
Print Assumptions C87_quad_forward_error.
Print Assumptions C88_quad_exact.
Print Assumptions C88_constant_int_exact.
Print Assumptions C88_diagonal_exact.
