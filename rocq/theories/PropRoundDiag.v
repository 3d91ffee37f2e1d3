(* C108: diag in rounded arithmetic, from the probes to the vector returned. *)
From mathcomp Require Import all_ssreflect all_algebra zify ring.
From Verif Require Import Base ModelStats LemStats PropStats ModelEstimators LemEstimators LemEst2 PropEstimators
  ModelRandom ModelTrace LemTrace PropTrace PropDiag PropUnbiased PropTail PropVariance
  ModelRound PropRound ModelRoundHutch PropRoundHutch ModelRoundDiag.
From Verif Require Spec.

Set Implicit Arguments.
Unset Strict Implicit.
Unset Printing Implicit Defensive.
Import Order.TTheory GRing.Theory Num.Theory.
Local Open Scope ring_scope.

(* ---- the specification ----------------------------------------------------- *)
Section Spec108.
Variable F : rcfType.
Variable N : nat.
Implicit Types (A : 'M[F]_N) (vs : seq 'cV[F]_N).

Definition row_abs A (i : 'I_N) : F := \sum_j `|A i j|.
(* the sum of (A v)_i v_i over the probes *)
Definition part_sum A vs (i : 'I_N) : F := \sum_(v <- vs) (\sum_j A i j * v j 0) * v i 0.
(* what exact arithmetic returns for probes with entries 1 and -1: the mean of the running means *)
Definition diag_mean A vs (i : 'I_N) : F :=
  (\sum_(k < size vs) part_sum A (take k.+1 vs) i / k.+1%:R) / (size vs)%:R.
(* u: unit roundoff of numer and denom, w: that of the running mean, order n, k probes *)
Definition diag_const (u w : F) (n k : nat) : F :=
  ((1 + u) ^+ (n + k + 2) - 1) + mean_const w 1 k * (1 + u) ^+ (n + k + 2).
Definition signs (vs : seq 'cV[F]_N) : Prop := forall v, v \in vs -> forall i, v i 0 = 1 \/ v i 0 = -1.
End Spec108.

Section Props.
Variable F : rcfType.
Variable G : Type.
Variable N : nat.
Implicit Types (rnd rndE : F -> F) (u w : F) (A : 'M[F]_N) (vs ps : seq 'cV[F]_N) (st : rdst F N)
  (sample : sampler F G N) (stop : rdst F N -> bool).

(* ---- what a run is ---------------------------------------------------------- *)
Inductive rdrun rnd rndE A : seq 'cV[F]_N -> rdst F N -> Prop :=
| RR0 : rdrun rnd rndE A [::] rd0
| RRS vs v st st' : rdrun rnd rndE A vs st -> rdstep rnd rndE A v st st' -> rdrun rnd rndE A (rcons vs v) st'.

Lemma rdloop_run rnd rndE A sample stop g st ps : sample_ok sample ->
  rdloop rnd rndE A sample stop g rd0 [::] st ps ->
  [/\ rdrun rnd rndE A ps st, ps = dprobes sample (size ps) g, stop st &
      forall j, (j < size ps)%N -> exists2 st', rdrun rnd rndE A (take j ps) st' & ~~ stop st'].
Proof.
move=> ok.
suff H g1 st1 qs : rdloop rnd rndE A sample stop g1 st1 qs st ps ->
    g1 = gen_after sample 1 (size qs) g -> qs = dprobes sample (size qs) g -> rdrun rnd rndE A qs st1 ->
    (forall j, (j < size qs)%N -> exists2 st', rdrun rnd rndE A (take j qs) st' & ~~ stop st') ->
  [/\ rdrun rnd rndE A ps st, ps = dprobes sample (size ps) g, stop st &
      forall j, (j < size ps)%N -> exists2 st', rdrun rnd rndE A (take j ps) st' & ~~ stop st'].
  by move=> /H; apply=> //; apply: RR0.
elim=> {g1 st1 qs st ps} [g1 st ps hs|g1 st ps st1 st' qs hs hd _ IH] eg ep hr hj //.
apply: IH.
- by rewrite size_rcons gen_after_S eg.
- by rewrite size_rcons dprobes_S // -ep eg.
- exact: RRS hr hd.
- move=> j; rewrite size_rcons ltnS leq_eqVlt => /orP[/eqP ->|jk].
    by rewrite -cats1 take_size_cat //; exists st.
  have [st2 h1 h2] := hj j jk; exists st2 => //.
  by rewrite -cats1 takel_cat // ltnW.
Qed.

Lemma rdrun_n rnd rndE A vs st : rdrun rnd rndE A vs st -> rd_n st = size vs.
Proof. by elim=> {vs st} [|vs v st st' _ IH [x _ ->]] //=; rewrite size_rcons IH. Qed.

Lemma rdrun_take rnd rndE A vs st : rdrun rnd rndE A vs st -> forall j, exists st', rdrun rnd rndE A (take j vs) st'.
Proof.
elim=> {vs st} [|vs v st st' h IH hs] j; first by exists rd0; apply: RR0.
case: (ltnP j (size (rcons vs v))) => hj; last by rewrite take_oversize //; exists st'; apply: RRS h hs.
rewrite -cats1 takel_cat; last by rewrite size_rcons in hj.
exact: IH.
Qed.

Lemma dprobes_signs sample k g : sign_sampler sample -> signs (dprobes sample k g).
Proof.
move=> sg v /flattenP[b hb hv] i.
have [g' eb] : exists g', b = (sample 1%N g').1.
  elim: k g hb => //= k IH g'; rewrite inE => /orP[/eqP ->|]; [by exists g' | exact: IH].
by rewrite eb in hv; apply: (sg 1%N g').
Qed.

(* ---- one entry -------------------------------------------------------------- *)
Lemma row_abs_ge0 A i : 0 <= row_abs A i.
Proof. by apply: sumr_ge0 => j _; apply: normr_ge0. Qed.

Lemma part_sum_rcons A vs (v : 'cV[F]_N) i : part_sum A (rcons vs v) i = part_sum A vs i + (\sum_j A i j * v j 0) * v i 0.
Proof. by rewrite /part_sum -cats1 big_cat big_seq1. Qed.

Lemma term_le A (v : 'cV[F]_N) i : (forall i, v i 0 = 1 \/ v i 0 = -1) -> `|(\sum_j A i j * v j 0) * v i 0| <= row_abs A i.
Proof.
move=> sv; have n1 j : `|v j 0| = 1 by case: (sv j) => ->; rewrite ?normrN normr1.
rewrite normrM n1 mulr1; apply: le_trans (ler_norm_sum _ _ _) _.
by apply: ler_sum => j _; rewrite normrM n1 mulr1.
Qed.

Lemma signs_rcons vs (v : 'cV[F]_N) : signs (rcons vs v) -> signs vs /\ forall i, v i 0 = 1 \/ v i 0 = -1.
Proof.
move=> h; split=> [x hx|]; first by apply: h; rewrite mem_rcons inE hx orbT.
by apply: h; rewrite mem_rcons inE eqxx.
Qed.

Lemma part_sum_le A vs i : signs vs -> `|part_sum A vs i| <= (size vs)%:R * row_abs A i.
Proof.
elim/last_ind: vs => [|vs v IH] h; first by rewrite /part_sum big_nil normr0 mul0r.
have [h1 h2] := signs_rcons h.
rewrite part_sum_rcons size_rcons; apply: le_trans (ler_norm_add _ _) _.
by rewrite -[(size vs).+1]addn1 natrD mulrDl mul1r ler_add ?IH ?term_le.
Qed.

Lemma step_term rnd u A (v x : 'cV[F]_N) i : relerr rnd u -> 0 <= u -> (forall i, v i 0 = 1 \/ v i 0 = -1) -> rmatvec rnd A v x ->
  `|rnd (x i 0 * v i 0) - (\sum_j A i j * v j 0) * v i 0| <= ((1 + u) ^+ N.+1 - 1) * row_abs A i.
Proof.
move=> hr u0 sv hx; rewrite exprSr; apply: comp_err => //; first exact: exp1_ge1; last exact: term_le.
have n1 j : `|v j 0| = 1 by case: (sv j) => ->; rewrite ?normrN normr1.
rewrite -mulrBl normrM n1 mulr1.
have := dotv_err hr u0 (hx i); rewrite size_map size_enum_ord !big_map.
have e (f : 'I_N -> F) : \sum_(j <- Finite.enum (ordinal_finType N)) f j = \sum_j f j by rewrite -enumT big_enum.
rewrite !e; suff -> : \sum_j `|A i j * v j 0| = row_abs A i by [].
by apply: eq_bigr => j _; rewrite normrM n1 mulr1.
Qed.

Lemma denom_exact rnd rndE M A vs st : int_exact rnd M -> signs vs -> (size vs <= M)%N ->
  rdrun rnd rndE A vs st -> forall i, rd_denom st i 0 = (size vs)%:R.
Proof.
move=> hM sg hs h; elim: h sg hs => {vs st} [|vs v st st' _ IH [x _ ->]] sg hs i /=; first by rewrite mxE.
have [h1 h2] := signs_rcons sg.
rewrite mxE IH //; last by rewrite size_rcons in hs; apply: ltnW.
have -> : v i 0 ^+ 2 = 1 by case: (h2 i) => ->; rewrite ?sqrrN expr1n.
rewrite (hM 1); last by rewrite size_rcons in hs; apply: leq_ltn_trans hs.
rewrite size_rcons -[(size vs).+1]addn1 natrD -[(size vs)%:R + 1%:~R]/((size vs)%:~R + 1%:~R) -intrD.
by rewrite hM // -PoszD absz_nat addn1; rewrite size_rcons in hs.
Qed.

Lemma numer_err rnd rndE u A vs st : relerr rnd u -> 0 <= u -> signs vs ->
  rdrun rnd rndE A vs st -> forall i,
  `|rd_numer st i 0 - part_sum A vs i| <= ((1 + u) ^+ (N.+1 + size vs) - 1) * ((size vs)%:R * row_abs A i).
Proof.
move=> hr u0 sg h; elim: h sg => {vs st} [|vs v st st' _ IH [x hx ->]] sg i /=.
  by rewrite mxE /part_sum big_nil subr0 normr0 mul0r mulr0.
have [h1 h2] := signs_rcons sg; rewrite mxE size_rcons addnS exprSr.
have hle := part_sum_le A i sg; rewrite size_rcons in hle.
apply: comp_err => //; first exact: exp1_ge1.
rewrite part_sum_rcons opprD addrACA; apply: le_trans (ler_norm_add _ _) _.
rewrite -[(size vs).+1]addn1 natrD mulrDl mul1r mulrDr; apply: ler_add; first exact: IH.
apply: le_trans (step_term _ hr u0 h2 hx) _.
by rewrite ler_wpmul2r ?row_abs_ge0 // ler_add2r exp1_mono // leq_addr.
Qed.

Lemma ratio_err rnd rndE u M A vs st : relerr rnd u -> 0 <= u -> int_exact rnd M -> signs vs ->
  (0 < size vs <= M)%N -> rdrun rnd rndE A vs st -> forall i,
  `|rnd (rd_numer st i 0 / rd_denom st i 0) - part_sum A vs i / (size vs)%:R|
    <= ((1 + u) ^+ (N + size vs + 2) - 1) * row_abs A i.
Proof.
move=> hr u0 hM sg /andP[s0 sM] h i; rewrite (denom_exact hM sg sM h).
have sF : 0 < (size vs)%:R :> F by rewrite ltr0n.
have -> : (N + size vs + 2 = (N.+1 + size vs).+1)%N by lia.
rewrite exprSr; apply: comp_err => //; first exact: exp1_ge1.
  rewrite -mulrBl normrM normfV (ger0_norm (ltW sF)) ler_pdivr_mulr //.
  by apply: le_trans (numer_err hr u0 sg h i) _; rewrite [_ * row_abs A i]mulrC mulrA.
rewrite normrM normfV (ger0_norm (ltW sF)) ler_pdivr_mulr // mulrC.
exact: part_sum_le.
Qed.

(* the running mean of entry i is a run of the accumulator of ModelRound.v on batches of one *)
Lemma entry_run rnd rndE A vs st i : rdrun rnd rndE A vs st ->
  exists2 ys : seq F,
    (exists2 a, rrun rndE [seq [:: y] | y <- ys] a & ra_mu a = rd_mu st i 0) &
    size ys = size vs /\ forall k, (k < size vs)%N -> exists2 st', rdrun rnd rndE A (take k.+1 vs) st' &
       ys`_k = rnd (rd_numer st' i 0 / rd_denom st' i 0).
Proof.
elim=> {vs st} [|vs v st st' h [ys [a ha em] [es hy]] hs].
  by exists [::]; [exists (racc0 F); [apply: Run0 | rewrite /= mxE] | split].
have [x hx e'] := hs; have en := rdrun_n h.
exists (rcons ys (rnd (rd_numer st' i 0 / rd_denom st' i 0))); last first.
  split=> [|k]; rewrite !size_rcons ?es // ltnS leq_eqVlt => /orP[/eqP ->|hk].
    rewrite take_oversize ?size_rcons // nth_rcons es ltnn eqxx; exists st' => //; exact: RRS h hs.
  have [st1 h1 h2] := hy k hk; exists st1; last by rewrite nth_rcons es hk.
  by rewrite -cats1 takel_cat.
set y := rnd _.
have [q hq] := dotv_total rndE [seq z * z | z <- rcentered rndE (rbatch_mean rndE y 1) [:: y]].
have an : ra_n a = rd_n st.
  rewrite (rrun_n ha) en -es; elim: (ys) => //= z s IH; by rewrite IH.
eexists.
  rewrite map_rcons; apply: (RunS ha) => //.
  by exists y, q; split; [apply: Sum1 | exact: hq | reflexivity].
by rewrite /= an em e' /= !mxE /y e' /= !mxE.
Qed.

Lemma signs_take vs k : signs vs -> signs (take k vs).
Proof. by move=> h v /mem_take; apply: h. Qed.

Lemma flatten_ones (T : Type) (ys : seq T) : flatten [seq [:: y] | y <- ys] = ys.
Proof. by elim: ys => //= y s ->. Qed.

Lemma mean_const_ge0 w k : 0 <= w -> 0 <= mean_const w 1 k.
Proof.
move=> w0; have e j : 0 <= (1 + w) ^+ j - 1 by rewrite subr_ge0 exp1_ge1.
by rewrite /mean_const; apply: addr_ge0; [apply: addr_ge0; rewrite ?e // mulr_ge0 ?ler0n ?e | rewrite !mulr_ge0 ?ler0n].
Qed.

Lemma run_entry rnd rndE u w M A vs st : relerr rnd u -> 0 <= u -> relerr rndE w -> 0 <= w -> int_exact rnd M ->
  signs vs -> (0 < size vs <= M)%N -> mean_const w 1 (size vs) <= 1 -> rdrun rnd rndE A vs st ->
  forall i, `|rd_mu st i 0 - diag_mean A vs i| <= diag_const u w N (size vs) * row_abs A i.
Proof.
move=> hr u0 hw w0 hM sg /andP[s0 sM] hc h i.
have [ys [a ha <-] [es hy]] := entry_run i h.
set K := size vs in s0 sM hc es hy *; set g := (1 + u) ^+ (N + K + 2); set m := row_abs A i.
have m0 : 0 <= m := row_abs_ge0 A i.
have KF : 0 < K%:R :> F by rewrite ltr0n.
have g1 : 1 <= g by apply: exp1_ge1.
pose e k := part_sum A (take k.+1 vs) i / k.+1%:R.
have he k : (k < K)%N -> `|ys`_k - e k| <= (g - 1) * m /\ `|e k| <= m.
  move=> hk; have [st' h1 ->] := hy k hk.
  have sk : size (take k.+1 vs) = k.+1 by rewrite size_takel.
  have kM : (0 < size (take k.+1 vs) <= M)%N by rewrite sk /= (leq_trans hk sM).
  have := ratio_err hr u0 hM (@signs_take vs k.+1 sg) kM h1 i; rewrite sk -/(e k) => hh.
  split.
    apply: le_trans hh _; rewrite ler_wpmul2r // ler_add2r exp1_mono // leq_add2r leq_add2l //.
  have kF : 0 < k.+1%:R :> F by rewrite ltr0n.
  rewrite /e normrM normfV (ger0_norm (ltW kF)) ler_pdivr_mulr // mulrC.
  by have := part_sum_le A i (@signs_take vs k.+1 sg); rewrite sk.
have hB : {in ys, forall y, `|y| <= g * m}.
  move=> y /(nthP 0)[k hk <-]; rewrite es in hk; have [h1 h2] := he k hk.
  have -> : ys`_k = (ys`_k - e k) + e k by rewrite subrK.
  apply: le_trans (ler_norm_add _ _) _; apply: le_trans (ler_add h1 h2) _.
  by rewrite mulrBl mul1r subrK.
have B0 : 0 <= g * m by rewrite mulr_ge0 // (le_trans ler01).
have := C87_mean_forward_error (bmax := 1) hw w0 B0 ha; rewrite flatten_ones size_map es -/K.
have b1 : {in [seq [:: y] | y <- ys], forall X, (size X <= 1)%N} by move=> X /mapP[y _ ->].
move=> /(_ b1 hB hc) {b1} h1.
have h2 : `|avg ys - diag_mean A vs i| <= (g - 1) * m.
  rewrite /avg /diag_mean -/K es (big_nth 0) big_mkord es -mulrBl -sumrB normrM normfV (ger0_norm (ltW KF)).
  rewrite ler_pdivr_mulr //; apply: le_trans (ler_norm_sum _ _ _) _.
  apply: (@le_trans _ _ (\sum_(k < K) (g - 1) * m)); first by apply: ler_sum => k _; have [] := he k (ltn_ord k).
  by rewrite sumr_const card_ord mulr_natr.
have -> : ra_mu a - diag_mean A vs i = (ra_mu a - avg ys) + (avg ys - diag_mean A vs i) by ring.
apply: le_trans (ler_norm_add _ _) _; apply: le_trans (ler_add h1 h2) _.
suff -> : mean_const w 1 K * (g * m) + (g - 1) * m = diag_const u w N K * m by [].
by rewrite /diag_const -/g; ring.
Qed.

(* ---- C108: any stopping rule, any order of additions ------------------------------- *)
Theorem C108_run_error rnd rndE u w (M : nat) A sample stop g x ps :
  relerr rnd u -> 0 <= u -> relerr rndE w -> 0 <= w -> int_exact rnd M -> sample_ok sample -> sign_sampler sample ->
  rdiag rnd rndE A sample stop g (Some x) ps -> (size ps <= M)%N ->
  [/\ (0 < size ps)%N, ps = dprobes sample (size ps) g &
      mean_const w 1 (size ps) <= 1 ->
      forall i, `|x i 0 - diag_mean A ps i| <= diag_const u w N (size ps) * row_abs A i].
Proof.
move=> hr u0 hw w0 hM ok sg [st h ex] sM.
have [h1 h2 _ _] := rdloop_run ok h; have en := rdrun_n h1.
have s0 : (0 < size ps)%N by rewrite -en lt0n; case: eqP ex.
split=> // hc i; rewrite en eqn0Ngt s0 /= in ex; case: ex => ->.
have sp : signs ps by rewrite h2; apply: dprobes_signs.
by apply: (run_entry hr u0 hw w0 hM) => //; rewrite s0.
Qed.

Theorem C108_first_order u w (n k : nat) : 0 <= u -> 0 <= w -> (2 * (n + k + 2))%:R * u <= 1 -> 6%:R * w <= 1 ->
  mean_const w 1 k <= (26 + 3 * k)%:R * w /\
  diag_const u w n k <= (2 * (n + k + 2))%:R * u + (52 + 6 * k)%:R * w.
Proof.
move=> u0 w0 hu w6.
have le (j : nat) : (j <= 6)%N -> j%:R * w <= 1 by move=> hj; apply: le_trans w6; rewrite ler_wpmul2r // ler_nat.
have [hm _] := @C107_first_order F w 0 1 k w0 w6 (le 0%N isT) (le 2%N isT).
split=> //.
have half : (n + k + 2)%:R * u <= 1 / 2%:R by rewrite ler_pdivl_mulr ?ltr0n // mulrC mulrA -natrM.
have E := exp_lin u0 half; rewrite -natrM in E.
have E1 : (1 + u) ^+ (n + k + 2) <= 2%:R by move: (le_trans E hu); rewrite ler_subl_addr.
rewrite /diag_const; apply: ler_add => //.
apply: (@le_trans _ _ (mean_const w 1 k * 2%:R)); first by rewrite ler_wpmul2l // mean_const_ge0.
have -> : (52 + 6 * k)%:R * w = (26 + 3 * k)%:R * w * 2%:R.
  by rewrite mulrAC -natrM; congr (_%:R * _); lia.
by rewrite ler_wpmul2r ?ler0n.
Qed.

(* ---- C108: runs exist ----------------------------------------------------------------- *)
Lemma rdstep_total rnd rndE A v st : exists st', rdstep rnd rndE A v st st'.
Proof.
have H (i : 'I_N) : exists a, dotv rnd [seq A i j * v j 0 | j <- enum 'I_N] a by apply: dotv_total.
have [f hf] : exists f : 'I_N -> F, forall i, dotv rnd [seq A i j * v j 0 | j <- enum 'I_N] (f i).
  have : exists s : seq F, size s = N /\ forall i : 'I_N, dotv rnd [seq A i j * v j 0 | j <- enum 'I_N] s`_i.
    have K k : (k <= N)%N -> exists s : seq F, size s = k /\
        forall i : 'I_N, (i < k)%N -> dotv rnd [seq A i j * v j 0 | j <- enum 'I_N] s`_i.
      elim: k => [|k IH] hk; first by exists [::].
      have [s [es hs]] := IH (ltnW hk); have [a ha] := H (Ordinal hk).
      exists (rcons s a); rewrite size_rcons es; split=> // i; rewrite ltnS leq_eqVlt nth_rcons es => /orP[/eqP e|hi].
        rewrite e ltnn eqxx; suff -> : i = Ordinal hk by []; exact: val_inj.
      by rewrite hi; apply: hs.
    by have [s [es hs]] := K N (leqnn N); exists s; split=> // i; apply: hs.
  by case=> s [_ hs]; exists (fun i => s`_i).
by eexists; exists (\col_i f i) => [i|]; [rewrite mxE; exact: hf | reflexivity].
Qed.

Theorem C108_returns rnd rndE A sample (n : nat) g : sample_ok sample ->
  (exists x ps, rdiag rnd rndE A sample (@rdcount F N n) g x ps) /\
  (forall x ps, rdiag rnd rndE A sample (@rdcount F N n) g x ps ->
     ps = dprobes sample n g /\ (x = None <-> n = 0%N)).
Proof.
move=> ok; split=> [|x ps [st h ex]].
  suff [st [ps h]] : exists st ps, rdloop rnd rndE A sample (@rdcount F N n) g rd0 [::] st ps.
    by eexists; exists ps, st; [exact: h | reflexivity].
  suff H k g0 st ps : (n <= k + rd_n st)%N ->
      exists st' qs, rdloop rnd rndE A sample (@rdcount F N n) g0 st ps st' qs.
    by apply: (H n); rewrite addn0.
  elim: k g0 st ps => [|k IH] g0 st ps hn; first by exists st, ps; apply: RDStop.
  case: (leqP n (rd_n st)) => hs; first by exists st, ps; apply: RDStop.
  have [st1 h1] := rdstep_total rnd rndE A (head 0 (sample 1%N g0).1) st.
  have [|st2 [qs h2]] := IH (sample 1%N g0).2 st1 (rcons ps (head 0 (sample 1%N g0).1)).
    by have [y _ ->] := h1; rewrite /= addnS -addSn.
  by exists st2, qs; apply: RDStep h1 h2; rewrite /rdcount -ltnNge.
have [h1 h2 h3 h4] := rdloop_run ok h; have en := rdrun_n h1.
have es : size ps = n.
  apply/eqP; rewrite eqn_leq; apply/andP; split; last by rewrite -en.
  case E: (size ps) => [//|k]; have [|st' h5] := h4 k; first by rewrite E.
  rewrite /rdcount -ltnNge (rdrun_n h5) size_takel ?E //.
split; first by rewrite h2 es.
by rewrite ex en es; case: (n) => [|k] //=; split.
Qed.

(* ---- C108: the exact run -------------------------------------------------------------- *)
Variables (tppf : F -> nat -> F) (zq : F -> F).

Lemma avg_running A vs i : signs vs ->
  Spec.avg [seq (\sum_(v <- take k.+1 vs) (A *m v) i 0 * v i 0) / (\sum_(v <- take k.+1 vs) v i 0 ^+ 2)
           | k <- iota 0 (size vs)] = diag_mean A vs i.
Proof.
move=> sg; rewrite /Spec.avg /diag_mean big_map size_map size_iota; congr (_ / _).
rewrite -[X in iota 0 X]subn0 -/(index_iota 0 (size vs)) big_mkord; apply: eq_bigr => k _; congr (_ / _).
  by apply: eq_bigr => v _; rewrite mxE.
have := @signs_take vs k.+1 sg; set ws := take _ _ => sw.
rewrite big_seq (eq_bigr (fun=> 1)); last by move=> v hv; case: (sw v hv i) => ->; rewrite ?sqrrN expr1n.
by rewrite -big_seq big_const_seq count_predT iter_addr_0 size_takel.
Qed.

Theorem C108_count rnd rndE u w (M n : nat) A sample g x ps fuel full cb r out :
  relerr rnd u -> 0 <= u -> relerr rndE w -> 0 <= w -> int_exact rnd M -> sample_ok sample -> sign_sampler sample ->
  (0 < N)%N -> (0 < n <= M)%N -> mean_const w 1 n <= 1 ->
  rdiag rnd rndE A sample (@rdcount F N n) g (Some x) ps ->
  diag tppf zq fuel A sample (CCount F n%:Z) full cb r g = Some (Ok out) -> (n < fuel)%N ->
  run_probes out = ps /\
  exists2 y : 'I_N -> F, pyval_x N (ret_value (run_ret out)) = [seq Fin (y i) | i <- enum 'I_N] &
    forall i, `|x i 0 - y i| <= diag_const u w N n * row_abs A i.
Proof.
move=> hr u0 hw w0 hM ok sg N0 /andP[n0 nM] hc h ho hf.
have [e1 e2] := C40_diag_value ok N0 ho.
have [out' [ho' s']] := @C81_diag_count F G tppf zq N fuel A sample n%:Z full cb r g ok N0 hf.
move: ho'; rewrite ho => -[eo]; rewrite -eo {out' eo} in s'; rewrite [pos_part _]/= in s'.
have [ep _] := (@C108_returns rnd rndE A sample n g ok).2 _ _ h.
have epp : run_probes out = ps by rewrite e2 s' ep.
have es : size ps = n by rewrite ep size_dprobes.
have sM : (size ps <= M)%N by rewrite es.
have [_ _ herr] := C108_run_error hr u0 hw w0 hM ok sg h sM.
split=> //; exists (diag_mean A ps); last by rewrite es in herr; exact: herr.
have sp : signs ps by rewrite ep; apply: dprobes_signs.
rewrite e1 epp; case E: ps es => [|v vs] es; first by move: n0; rewrite -es.
by rewrite -E; apply: eq_map => i; congr Fin; apply: avg_running.
Qed.

Lemma rdrun_id A vs st : rdrun (@id F) (@id F) A vs st -> forall i,
  rd_numer st i 0 = \sum_(v <- vs) (A *m v) i 0 * v i 0 /\ rd_denom st i 0 = \sum_(v <- vs) v i 0 ^+ 2.
Proof.
elim=> {vs st} [|vs v st st' _ IH [y hy ->]] i /=; first by rewrite !mxE !big_nil.
have [e1 e2] := IH i; rewrite !mxE e1 e2 -cats1 !big_cat !big_seq1 /=; split=> //; congr (_ + _ * _).
rewrite (dotv_id (hy i)) big_map mxE.
by rewrite -[RHS]big_enum.
Qed.

Theorem C108_exact (n : nat) A sample g x ps fuel full cb r :
  sample_ok sample -> (0 < N)%N -> (n < fuel)%N ->
  rdiag (@id F) (@id F) A sample (@rdcount F N n) g (Some x) ps ->
  exists out, [/\ diag tppf zq fuel A sample (CCount F n%:Z) full cb r g = Some (Ok out), run_probes out = ps &
                  pyval_x N (ret_value (run_ret out)) = [seq Fin (x i 0) | i <- enum 'I_N]].
Proof.
move=> ok N0 hf h.
have [out [ho s']] := @C81_diag_count F G tppf zq N fuel A sample n%:Z full cb r g ok N0 hf.
rewrite [pos_part _]/= in s'; have [e1 e2] := C40_diag_value ok N0 ho.
have [ep ex] := (@C108_returns _ _ A sample n g ok).2 _ _ h.
have epp : run_probes out = ps by rewrite e2 s' ep.
exists out; split=> //; rewrite e1 epp; have [st h1 h2] := h.
have [hr _ _ _] := rdloop_run ok h1; have es := rdrun_n hr.
case: eqP h2 => // sn [->]; case E: ps => [|v vs]; first by case: sn; rewrite es E.
rewrite -E; apply: eq_map => i; congr Fin.
have [ys [a ha <-] [sy hy]] := entry_run i hr.
have nn : [seq [:: y] | y <- ys] != [::] by rewrite -size_eq0 size_map sy E.
have [_ -> _ _] := @C86_exact_results F _ _ 0 0 ha nn; rewrite flatten_ones.
congr Spec.avg; apply: (@eq_from_nth _ 0) => [|k]; rewrite size_map size_iota ?sy // => hk.
have [st' h3 ->] := hy k hk; have [-> ->] := rdrun_id h3 i.
by rewrite (nth_map 0%N) ?size_iota // nth_iota.
Qed.

(* ---- C108: integer diagonal matrices ---------------------------------------------------- *)
Lemma rnd_z rnd M (z : int) : int_exact rnd M -> (absz z <= M)%N -> rnd z%:~R = z%:~R.
Proof. by move=> h /h. Qed.

Theorem C108_diagonal_exact rnd rndE (M : nat) (z : 'I_N -> int) sample stop g x ps :
  int_exact rnd M -> int_exact rndE M -> sample_ok sample -> sign_sampler sample ->
  rdiag rnd rndE (diag_mx (\row_i (z i)%:~R)) sample stop g (Some x) ps ->
  (size ps <= M)%N -> (forall i, size ps * absz (z i) <= M)%N ->
  forall i, x i 0 = (z i)%:~R.
Proof.
move=> hM hE ok sg [st h ex] sM zM i.
have [h1 h2 _ _] := rdloop_run ok h; have en := rdrun_n h1.
have s0 : (0 < size ps)%N by rewrite -en lt0n; case: eqP ex.
rewrite en eqn0Ngt s0 /= in ex; case: ex => ->.
have sp : signs ps by rewrite h2; apply: dprobes_signs.
suff: rd_numer st i 0 = (size ps)%:R * (z i)%:~R /\ ((0 < size ps)%N -> rd_mu st i 0 = (z i)%:~R) by case=> _; apply.
have {}zM := zM i; have {h h2 en s0 g sample ok sg stop x} _ := I.
have hD := fun vs st' sg' hs => @denom_exact rnd rndE M (diag_mx (\row_i (z i)%:~R)) vs st' hM sg' hs.
elim: h1 sp sM zM => {st ps} [|vs v st st' hr IH hs] sp sM zM; first by rewrite mxE mul0r.
have hden := hD _ _ sp sM (RRS hr hs) i.
have [s1 s2] := signs_rcons sp; rewrite size_rcons in sM zM hden *.
have [e1 e2] : rd_numer st i 0 = (size vs)%:R * (z i)%:~R /\ ((0 < size vs)%N -> rd_mu st i 0 = (z i)%:~R).
  by apply: IH => //; [apply: ltnW | apply: leq_trans zM; rewrite leq_mul2r leqnSn orbT].
have z1 : (absz (z i) <= M)%N by apply: leq_trans zM; rewrite mulSn leq_addr.
have [y hy e'] := hs; rewrite e' /= in hden *.
have vv : v i 0 * v i 0 = 1 by case: (s2 i) => ->; rewrite ?mulrNN mulr1.
have vn : `|v i 0| = 1 by case: (s2 i) => ->; rewrite ?normrN normr1.
have off (f : F -> F) : f 0 = 0 -> \sum_(p <- [seq diag_mx (\row_i (z i)%:~R) i j * v j 0 | j <- enum 'I_N]) f p = f ((z i)%:~R * v i 0).
  move=> f0; rewrite big_map big_enum /= (bigD1 i) //= !mxE eqxx mulr1n big1 ?addr0 // => j ji.
  by rewrite !mxE eq_sym (negPf ji) mulr0n mul0r f0.
have ey : y i 0 = (z i)%:~R * v i 0.
  have := dotv_int hM (hy i); rewrite (off (fun p => `|p|) (normr0 _)) => ->.
  - exact: (off id).
  - move=> p /mapP[j _ ->]; rewrite !mxE; apply: isintM.
      by case: (i == j); [rewrite mulr1n; exists (z i) | rewrite mulr0n; exact: isint0].
    by case: (s2 j) => ->; [exists 1; rewrite mulr1z | exists (-1); rewrite mulrN1z].
  - by rewrite normrM vn mulr1 -intr_norm -[M%:R]/(M%:Z%:~R) ler_int; lia.
have en1 : rnumer rnd st v y i 0 = (size vs).+1%:R * (z i)%:~R.
  rewrite mxE ey -mulrA vv mulr1 (rnd_z hM z1) e1 -[in RHS]addn1 natrD mulrDl mul1r.
  have -> : (size vs)%:R * (z i)%:~R + (z i)%:~R = ((size vs).+1%:Z * z i)%:~R :> F.
    by rewrite intrM -[(size vs).+1%:Z%:~R]/((size vs).+1%:R) -[in RHS]addn1 natrD mulrDl mul1r.
  by apply: (rnd_z hM); rewrite abszM absz_nat.
split=> // _; rewrite mxE /rratio mxE hden en1 mulrAC divff ?pnatr_eq0 // mul1r (rnd_z hM z1).
rewrite /rbatch_mean divr1 (rnd_z hE z1) /rmu_step /rdelta (rdrun_n hr).
have E0 : rndE 0 = 0 by rewrite -[0]/(0%:~R) (rnd_z hE).
case: (posnP (size vs)) => hv; last first.
  by rewrite e2 // subrr E0 mulr0 E0 addr0 (rnd_z hE z1).
have em : rd_mu st i 0 = 0.
  have : rdrun rnd rndE (diag_mx (\row_i (z i)%:~R)) vs st -> vs = [::] -> rd_mu st i 0 = 0.
    by case=> [|vs0 v0 st0 st1 _ _ /(congr1 size)]; rewrite ?mxE // size_rcons.
  by apply=> //; apply/eqP; rewrite -size_eq0 hv.
rewrite em hv add0n divff ?oner_eq0 // subr0 add0r (rnd_z hE z1).
have -> : rndE 1 = 1 by rewrite -[1]/(1%:~R) (rnd_z hE) //; apply: leq_trans sM.
by rewrite mul1r !(rnd_z hE z1).
Qed.

(* ---- C108: the denominators stop counting ------------------------------------------------ *)
Theorem C108_saturation rnd rndE (M : nat) A sample stop g st ps :
  int_exact rnd M -> rnd M.+1%:R = M%:R -> (0 < M)%N -> sample_ok sample -> sign_sampler sample ->
  rdloop rnd rndE A sample stop g rd0 [::] st ps ->
  forall i, rd_denom st i 0 = (minn (size ps) M)%:R.
Proof.
move=> hM hs M0 ok sg h i; have [h1 h2 _ _] := rdloop_run ok h.
have sp : signs ps by rewrite h2; apply: dprobes_signs.
elim: h1 sp => {st ps h h2} [|vs v st st' hr IH [y _ ->]] sp /=; first by rewrite mxE min0n.
have [s1 s2] := signs_rcons sp; rewrite mxE IH // size_rcons.
have -> : v i 0 ^+ 2 = 1 by case: (s2 i) => ->; rewrite ?sqrrN expr1n.
have -> : rnd 1 = 1 by rewrite -[1]/(1%:~R) (rnd_z hM).
rewrite -[_ + 1]/((minn (size vs) M)%:R + 1%:R) -natrD addn1.
case: (leqP M (size vs)) => hv.
  by rewrite hs (minn_idPr _) // ltnW.
by rewrite -[_.+1%:R]/(_.+1%:Z%:~R) (rnd_z hM) // (minn_idPl _).
Qed.
End Props.

(* ---- C108: how often rounded diag is far from the diagonal ----------------------------- *)
Section Tail.
Variable F : rcfType.
Variables (X : finType) (ux : X -> rat) (flip : X -> X).
Hypothesis uP : forall x, 0 <= ux x < 1.
Hypothesis flipK : involutive flip.
Hypothesis flipP : forall x, (ux (flip x) < 1 / 2%:R) = ~~ (ux x < 1 / 2%:R).
Hypothesis X0 : (0 < #|X|)%N.
Variable gauss : seq X -> F * seq X.
Variable N : nat.
Local Notation S := (iso_sampler (tape_unif ux) gauss N Rademacher).

(* all but few of the equally likely tapes: whatever order the additions happen in, every entry is within
   e plus the rounding of the diagonal *)
Theorem C108_tail (rnd rndE : F -> F) u w (M n : nat) (A : 'M[F]_N) L (e : F) :
  relerr rnd u -> 0 <= u -> relerr rndE w -> 0 <= w -> int_exact rnd M ->
  (0 < N)%N -> (0 < n <= M)%N -> mean_const w 1 n <= 1 -> (n * N <= L)%N -> 0 < e ->
  exists bad : seq X -> bool,
    fraction F L bad <= 2%:R * (\sum_i \sum_(j | j != i) A i j ^+ 2) / (n%:R * e ^+ 2) /\
    forall t : L.-tuple X, ~~ bad t -> forall x ps,
      rdiag rnd rndE A S (@rdcount F N n) (t : seq X) (Some x) ps ->
      forall i, `|x i 0 - A i i| < e + diag_const u w N n * row_abs A i.
Proof.
move=> hr u0 hw w0 hM N0 nM hc hL e0; have /andP[n0 _] := nM.
pose tppf (_ : F) (_ : nat) : F := 0; pose zq (_ : F) : F := 0.
have [val [hv ht]] := C98_diag_tail uP flipK flipP X0 gauss tppf zq A false false false N0 n0 (ltnSn n) hL.
exists (fun t => [exists i, e <= `|val t i - A i i|]); split; first exact: ht.
move=> t; rewrite negb_exists => /forallP hb x ps h i.
have up t' : 0 <= (tape_unif ux t').1 < 1 by case: t' => [|y l] /=; rewrite ?lexx ?ltr01.
have sg : sign_sampler S by move=> k g v h'; apply: (rademacher_probe up h').
have [out [ho eo]] := hv t.
have [_ [y ey hy]] := C108_count hr u0 hw w0 hM (@iso_sample_ok _ _ _ gauss N Rademacher) sg N0 nM hc h ho (ltnSn n).
have yi : y i = val t i.
  move: ey; rewrite eo => /(congr1 (fun s => nth NaN s i)).
  have nf (f : 'I_N -> F) : nth NaN [seq Fin (f j) | j <- enum 'I_N] i = Fin (f i).
    by rewrite (@nth_map _ i _ NaN (fun j => Fin (f j)) i (enum 'I_N)) ?size_enum_ord // nth_ord_enum.
  by rewrite !nf => -[].
have -> : x i 0 - A i i = (val t i - A i i) + (x i 0 - val t i) by ring.
apply: le_lt_trans (ler_norm_add _ _) _; apply: ltr_le_add; first by rewrite ltNge.
by rewrite -yi.
Qed.
End Tail.

(* ---- C108: with more probes than representable counts ---------------------------------- *)
Section Refute.
Variable F : rcfType.

Lemma dotv_nil (rnd : F -> F) ps a : dotv rnd ps a -> ps = [::] -> a = 0.
Proof.
elim=> {ps a} [|p|p ps a _ _|ps qs a b np _ _ _ _ _|ps qs a pq _ IH] //.
  by case: ps np.
by move=> e; apply: IH; apply/perm_nilP; rewrite -e.
Qed.

Lemma dotv_one (rnd : F -> F) ps a p : dotv rnd ps a -> ps = [:: p] -> a = rnd p.
Proof.
elim=> {ps a} [|q|q ps a h _|ps qs a b np nq _ _ _ _|ps qs a pq _ IH] //.
- by case=> ->.
- by case=> -> e; rewrite (dotv_nil h e) add0r.
- by case: ps np => // z [|? ?] //; case: qs nq.
- by move=> e; apply: IH; rewrite e in pq; apply: perm_small_eq.
Qed.

(* rounding M + 1 to M, the 1 x 1 matrix (M + 2) and the probe (1): exact arithmetic gives M + 2 whatever the
   number n of probes, the code at least n / 2 *)
Theorem C108_many_probes_refuted (M : nat) : (0 < M)%N ->
  exists rnd : F -> F, [/\ {homo rnd : x y / x <= y}, relerr rnd (1 / M%:R), int_exact rnd M &
    forall (n : nat) x ps,
      rdiag rnd (@id F) (const_mx M.+2%:R) (ones_sampler F) (@rdcount F 1 n) tt (Some x) ps ->
      diag_mean (const_mx M.+2%:R) ps 0 = M.+2%:R /\ n%:R / 2%:R <= x 0 0].
Proof.
move=> M0; have MF : 0 < M%:R :> F by rewrite ltr0n.
exists (flat M%:R M.+1%:R); split.
- exact: flat_mono.
- apply: flat_relerr; rewrite ?ler0n ?divr_ge0 ?ler01 ?ler0n //.
  by rewrite -mulrA mulVf ?gt_eqF // mulr1 -[M.+1]addn1 natrD addrAC subrr add0r.
- move=> z hz; rewrite /flat; case: ifP => // /andP[h _]; apply/eqP; rewrite eq_le h /=.
  by rewrite -[M%:R]/(M%:Z%:~R) ler_int; lia.
move=> n x ps h; have ok : sample_ok (ones_sampler F) by move=> k g /=; rewrite size_nseq.
have [ep exn] := (C108_returns _ _ _ n tt ok).2 _ _ h.
have es : size ps = n by rewrite ep size_dprobes.
have [st h1 h2] := h; have [hr _ _ _] := rdloop_run ok h1; have en := rdrun_n hr.
have n0 : (0 < n)%N by rewrite -es -en lt0n; case: eqP h2.
have p1 v : v \in ps -> v 0 0 = 1.
  rewrite ep => /flattenP[b hb hv]; suff : b = [:: const_mx 1] by move=> eb; move: hv; rewrite eb inE => /eqP ->; rewrite mxE.
  by elim: (n) hb => //= k IH; rewrite inE => /orP[/eqP|].
have big y : M.+2%:R <= y -> flat M%:R M.+1%:R y = y :> F.
  by move=> hy; rewrite /flat [y <= _]lt_geF ?andbF //; apply: lt_le_trans hy; rewrite ltr_nat.
have hn vs st' : rdrun (flat M%:R M.+1%:R) (@id F) (const_mx M.+2%:R) vs st' -> {subset vs <= ps} ->
    rd_numer st' 0 0 = (size vs * M.+2)%:R /\ rd_denom st' 0 0 = (minn (size vs) M)%:R.
  elim=> {vs st' h1 h2 hr en st} [|vs v st st' _ IH [y hy ->]] hsub /=; first by rewrite !mxE min0n.
  have [|e1 e2] := IH; first by move=> z hz; apply: hsub; rewrite mem_rcons inE hz orbT.
  have v1 : v 0 0 = 1 by apply: p1; apply: hsub; rewrite mem_rcons inE eqxx.
  have ey : y 0 0 = M.+2%:R.
    rewrite -[RHS]big //; apply: (dotv_one (hy 0)).
    by rewrite -(map_id [:: _]) enum_ordSl /= enum_ord0 /= v1 mxE mulr1.
  rewrite !mxE e1 e2 v1 expr1n mulr1 ey (big M.+2%:R) // size_rcons.
  have -> : flat M%:R M.+1%:R 1 = 1 :> F.
    rewrite /flat; case: ifP => // /andP[m1 _]; apply/eqP; rewrite eq_le m1 /=.
    by rewrite -[1]/(1%:R) ler_nat.
  rewrite -natrD big; last by rewrite ler_nat leq_addl.
  split; first by congr _%:R; lia.
  rewrite -[_ + 1]/((minn (size vs) M)%:R + 1%:R) -natrD addn1 /flat !ler_nat.
  by case: ifP => hi; congr _%:R; lia.
have sub k : {subset take k ps <= ps} by move=> z /mem_take.
split.
  rewrite /diag_mean (eq_bigr (fun=> M.+2%:R)) => [|k _].
    by rewrite sumr_const card_ord -[_ *+ _]mulr_natr mulfK // pnatr_eq0 es -lt0n.
  have sk : size (take k.+1 ps) = k.+1 by rewrite size_takel.
  rewrite /part_sum big_seq (eq_bigr (fun=> M.+2%:R)) => [|v hv].
    by rewrite -big_seq big_const_seq count_predT iter_addr_0 sk -[_ *+ _]mulr_natr mulfK // pnatr_eq0.
  by rewrite big_ord1 mxE (p1 v) ?(sub _ _ hv) // !mulr1.
move: h2; rewrite en es eqn0Ngt n0 /= => -[->].
have [ys [a ha <-] [sy hy]] := entry_run 0 hr.
have nn : [seq [:: y] | y <- ys] != [::] by rewrite -size_eq0 size_map sy es -lt0n.
have [_ -> _ _] := @C86_exact_results F _ _ 0 0 ha nn; rewrite flatten_ones /avg sy es.
have nF : 0 < n%:R :> F by rewrite ltr0n.
rewrite ler_pdivl_mulr // (big_nth 0) big_mkord sy es.
have hk (k : 'I_n) : k.+1%:R <= ys`_k.
  have kp : (k < size ps)%N by rewrite es.
  have [st' h3 ->] := hy k kp; have [-> ->] := hn _ _ h3 (sub _); rewrite size_takel //.
  have mF : 0 < (minn k.+1 M)%:R :> F by rewrite ltr0n leq_min.
  rewrite big; first by rewrite ler_pdivl_mulr // -natrM ler_nat; nia.
  by rewrite ler_pdivl_mulr // -natrM ler_nat; nia.
apply: le_trans (ler_sum _ (fun k _ => hk k)).
rewrite mulrAC ler_pdivr_mulr ?ltr0n // -natrM -natr_sum -natrM ler_nat.
elim: (n) => [|k IH]; first by rewrite big_ord0.
by rewrite big_ord_recr /=; nia.
Qed.

(* ---- cases ----------------------------------------------------------------------------- *)
Lemma id_relerr : relerr (@id F) 0.
Proof. by move=> x; rewrite subrr normr0 mul0r. Qed.

Definition alt_sampler : sampler F bool 2 :=
  fun k g => (nseq k (\col_i (if g && (i == 0) then 1 else -1)), ~~ g).

Lemma alt_ok : sample_ok alt_sampler.
Proof. by move=> k g /=; rewrite size_nseq. Qed.
Lemma alt_sign : sign_sampler alt_sampler.
Proof. by move=> k g v /nseqP[-> _] i; rewrite mxE; case: ifP => _; [left | right]. Qed.

Example C108_ex (A : 'M[F]_2) : exists x ps,
  rdiag (@bad4 F) id A alt_sampler (@rdcount F 2 3) true (Some x) ps /\
  forall i, `|x i 0 - diag_mean A ps i| <= ((1 + 1 / 16%:R) ^+ 7 - 1) * row_abs A i.
Proof.
have [[x [ps h]] h'] := C108_returns (@bad4 F) id A 3 true alt_ok.
have [ep ex] := h' _ _ h; case: x h ex => [x|] h ex; last by have := ex.1 erefl.
exists x, ps; split=> // i.
have es : size ps = 3%N by rewrite ep size_dprobes //; exact: alt_ok.
have u0 : 0 <= 1 / 16%:R :> F by rewrite divr_ge0 ?ler01 ?ler0n.
have m0 : mean_const 0 1 3 = 0 :> F by rewrite /mean_const addr0 !expr1n; ring.
have sM : (size ps <= 40)%N by rewrite es.
have [_ _] := C108_run_error (@bad4_relerr F) u0 id_relerr (lexx 0) (@bad4_int F) alt_ok alt_sign h sM.
by rewrite es m0 => /(_ ler01 i); rewrite /diag_const m0 mul0r addr0.
Qed.

Example C108_diagonal_ex : exists x ps,
  rdiag (@bad4 F) (@bad4 F) (diag_mx (\row_i ((if i == 0 then 2 else -3) : int)%:~R)) alt_sampler (@rdcount F 2 7) true (Some x) ps /\
  (x 0 0 = 2%:R /\ x 1 0 = - 3%:R).
Proof.
pose z (i : 'I_2) : int := if i == 0 then 2 else -3.
have [[x [ps h]] h'] := C108_returns (@bad4 F) (@bad4 F) (diag_mx (\row_i (z i)%:~R)) 7 true alt_ok.
have [ep ex] := h' _ _ h; case: x h ex => [x|] h ex; last by have := ex.1 erefl.
have es : size ps = 7%N by rewrite ep size_dprobes //; exact: alt_ok.
exists x, ps; split=> //.
have H := C108_diagonal_exact (@bad4_int F) (@bad4_int F) alt_ok alt_sign h.
have {}H : forall i, x i 0 = (z i)%:~R by apply: H; rewrite es // => i; rewrite /z; case: ifP.
by split; rewrite H.
Qed.
End Refute.

Print Assumptions C108_run_error.
Print Assumptions C108_first_order.
Print Assumptions C108_returns.
Print Assumptions C108_count.
Print Assumptions C108_exact.
Print Assumptions C108_diagonal_exact.
Print Assumptions C108_saturation.
Print Assumptions C108_tail.
Print Assumptions C108_many_probes_refuted.
