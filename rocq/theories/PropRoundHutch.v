(* C107: hutch in rounded arithmetic, from the probes to the value returned. *)
From mathcomp Require Import all_ssreflect all_algebra zify ring.
From Verif Require Import Base ModelStats LemStats PropStats ModelEstimators LemEstimators LemEst2 PropEstimators
  ModelRandom ModelTrace LemTrace PropTrace PropUnbiased PropTail ModelRound PropRound ModelRoundHutch.
From Verif Require Spec.

Set Implicit Arguments.
Unset Strict Implicit.
Unset Printing Implicit Defensive.
Import Order.TTheory GRing.Theory Num.Theory.
Local Open Scope ring_scope.

(* ---- the specification ----------------------------------------------------- *)
Section Spec107.
Variable F : rcfType.

(* the sum of the absolute values of the entries *)
Definition abs_sum N (M : 'M[F]_N) : F := \sum_i \sum_j `|M i j|.
(* the exact mean of v^T M v over the probes *)
Definition form_mean N (M : 'M[F]_N) (ps : seq 'cV[F]_N) : F :=
  (\sum_(v <- ps) (v^T *m M *m v) 0 0) / (size ps)%:R.
(* unit roundoff u, order n, batches of b, m batches *)
Definition hutch_const (u : F) (n b m : nat) : F :=
  ((1 + u) ^+ (2 * n) - 1) + mean_const u b m * (1 + u) ^+ (2 * n).
(* every probe a sampler returns has entries 1 and -1 *)
Definition sign_sampler G N (sample : sampler F G N) : Prop :=
  forall k g v, v \in (sample k g).1 -> forall i, v i 0 = 1 \/ v i 0 = -1.
(* a criterion that is met once n samples have been seen, whatever they are *)
Definition stops_by rnd tppf zq (c : rcrit F) (n : nat) : Prop :=
  forall st : racc F, (n <= ra_n st)%N -> rcall rnd tppf zq c st.
(* the same criterion without rounding *)
Fixpoint exact_crit (c : rcrit F) : crit F :=
  match c with
  | RCount n => CCount F n
  | RConf q a r => CConf q a r
  | ROr a b => COr (exact_crit a) (exact_crit b)
  | RAnd a b => CAnd (exact_crit a) (exact_crit b)
  | RNot a => CNot (exact_crit a)
  end.
End Spec107.

Section Props.
Variable F : rcfType.
Variable G : Type.
Variable tppf : F -> nat -> F.
Variable zq : F -> F.
Variable N : nat.
Implicit Types (rnd : F -> F) (st : racc F) (u : F) (M : 'M[F]_N) (sample : sampler F G N) (c : rcrit F).

Lemma rforms_cat rnd M vs ws xs ys : rforms rnd M vs xs -> rforms rnd M ws ys ->
  rforms rnd M (vs ++ ws) (xs ++ ys).
Proof.
move=> [s1 h1] [s2 h2]; split=> [|i]; first by rewrite !size_cat s1 s2.
rewrite size_cat !nth_cat s1; case: (ltnP i (size vs)) => hi hl; first exact: h1.
by apply: h2; rewrite ltn_subLR.
Qed.

(* ---- what a run is ---------------------------------------------------------- *)
(* a run from the start: the batches, the computed forms, the accumulators *)
Lemma rloop_run rnd M sample b c g x qs : sample_ok sample -> (0 < b)%N ->
  rloop rnd tppf zq M sample b c g (racc0 F) [::] x qs ->
  exists k h st,
  [/\ qs = flatten (batches sample b k g), rforms rnd M qs (flatten h),
      map size h = nseq k b, rrun rnd h st
    & [/\ x = restimate st, rcall rnd tppf zq c st
        & forall j, (j < k)%N -> exists2 st', rrun rnd (take j h) st' & ~~ rcall rnd tppf zq c st']].
Proof.
move=> ok b0.
suff H g1 st ps y rs : rloop rnd tppf zq M sample b c g1 st ps y rs -> forall k h,
    g1 = gen_after sample b k g -> ps = flatten (batches sample b k g) -> rforms rnd M ps (flatten h) ->
    map size h = nseq k b -> rrun rnd h st ->
    (forall j, (j < k)%N -> exists2 st', rrun rnd (take j h) st' & ~~ rcall rnd tppf zq c st') ->
  exists k h st,
  [/\ rs = flatten (batches sample b k g), rforms rnd M rs (flatten h),
      map size h = nseq k b, rrun rnd h st
    & [/\ y = restimate st, rcall rnd tppf zq c st
        & forall j, (j < k)%N -> exists2 st', rrun rnd (take j h) st' & ~~ rcall rnd tppf zq c st']].
  by move=> /H /(_ 0%N [::]); apply=> //; apply: Run0.
elim=> {g1 st ps y rs} [g1 st ps hc|g1 st ps xs st' y rs hc hf hu _ IH] k h eg ep hp hs hr hj.
  by exists k, h, st; split.
have sx : size xs = b by case: hf => -> _; rewrite ok.
have skh : size h = k by rewrite -(size_map size) hs size_nseq.
apply: (IH k.+1 (rcons h xs)).
- by rewrite gen_after_S eg.
- by rewrite batches_rcons ep -cats1 flatten_cat /= cats0 eg.
- by rewrite -cats1 flatten_cat /= cats0; apply: rforms_cat.
- by rewrite map_rcons hs sx -[in RHS]addn1 nseqD cats1.
- by apply: (RunS hr) => //; rewrite -size_eq0 sx -lt0n.
- move=> j; rewrite ltnS leq_eqVlt => /orP[/eqP ->|jk].
    by rewrite -skh -cats1 take_size_cat //; exists st.
  have [st1 h1 h2] := hj j jk; exists st1 => //.
  by rewrite -cats1 takel_cat // skh ltnW.
Qed.

Lemma rrun_n rnd h st : rrun rnd h st -> ra_n st = size (flatten h).
Proof.
elim=> {h st} [|h st X st' _ IH _ [s [q [_ _ ->]]]] //=.
by rewrite -cats1 flatten_cat size_cat /= cats0 IH.
Qed.

Lemma rrun_nil (rnd : F -> F) st : rrun rnd [::] st -> st = racc0 F.
Proof.
have H h : rrun rnd h st -> h = [::] -> st = racc0 F.
  by case=> // h1 st1 Y1 st2 _ _ _ /(congr1 size); rewrite size_rcons.
by move=> /H; apply.
Qed.

(* ---- the matrix by rows ------------------------------------------------------ *)
Lemma nth_rows M (i j : 'I_N) : (nth [::] (mx_rows M) i)`_j = M i j.
Proof.
have si : (i < size (enum 'I_N))%N by rewrite size_enum_ord.
have sj : (j < size (enum 'I_N))%N by rewrite size_enum_ord.
by rewrite /mx_rows (nth_map i) // nth_ord_enum (nth_map j) // nth_ord_enum.
Qed.
Lemma nth_entries (v : 'cV[F]_N) (i : 'I_N) : (entries v)`_i = v i 0.
Proof. by rewrite /entries (nth_map i) ?size_enum_ord // nth_ord_enum. Qed.
Lemma size_rows M : size (mx_rows M) = N.
Proof. by rewrite size_map size_enum_ord. Qed.
Lemma rows_square M : square (mx_rows M) N.
Proof. by split=> [|r /mapP[i _ ->]]; rewrite ?size_rows // size_map size_enum_ord. Qed.

Lemma qform_rows M v : qform (mx_rows M) (entries v) = (v^T *m M *m v) 0 0.
Proof.
rewrite /qform size_rows -mulmxA mxE; apply: eq_bigr => i _.
rewrite nth_entries !mxE; congr (_ * _); apply: eq_bigr => j _.
by rewrite nth_rows nth_entries.
Qed.
Lemma abs_rows M : \sum_(i < N) \sum_(j < N) `|(nth [::] (mx_rows M) i)`_j| = abs_sum M.
Proof. by apply: eq_bigr => i _; apply: eq_bigr => j _; rewrite nth_rows. Qed.

Lemma abs_sum_ge0 M : 0 <= abs_sum M.
Proof. by apply: sumr_ge0 => i _; apply: sumr_ge0. Qed.

Definition signs (v : 'cV[F]_N) : Prop := forall i, v i 0 = 1 \/ v i 0 = -1.

Lemma form_le M v : signs v -> `|(v^T *m M *m v) 0 0| <= abs_sum M.
Proof.
move=> hv; rewrite -mulmxA mxE; apply: le_trans (ler_norm_sum _ _ _) _; apply: ler_sum => i _.
have n1 j : `|v j 0| = 1 by case: (hv j) => ->; rewrite ?normrN normr1.
rewrite normrM mxE n1 mul1r mxE; apply: le_trans (ler_norm_sum _ _ _) _; apply: ler_sum => j _.
by rewrite normrM n1 mulr1.
Qed.

Lemma quad_err rnd u M v r : relerr rnd u -> 0 <= u -> signs v ->
  rquad rnd (mx_rows M) (entries v) r ->
  `|r - (v^T *m M *m v) 0 0| <= ((1 + u) ^+ (2 * N) - 1) * abs_sum M.
Proof.
move=> hr u0 hv hq; rewrite -qform_rows -abs_rows.
apply: (C87_quad_forward_error hr u0 (rows_square M) _ _ hq); first by rewrite size_map size_enum_ord.
by move=> x /mapP[i _ ->]; case: (hv i) => ->; rewrite ?normrN normr1.
Qed.

Lemma avg_close (xs ys : seq F) (E : F) : size xs = size ys -> (0 < size xs)%N ->
  (forall i, (i < size xs)%N -> `|xs`_i - ys`_i| <= E) -> `|avg xs - avg ys| <= E.
Proof.
move=> es s0 h; rewrite /avg -es -mulrBl normrM [X in _ * X]ger0_norm ?invr_ge0 ?ler0n //.
rewrite ler_pdivr_mulr ?ltr0n // !(big_nth 0) -es !big_mkord -sumrB.
apply: le_trans (ler_norm_sum _ _ _) _.
apply: le_trans (_ : \sum_(i < size xs) E <= _); first by apply: ler_sum => i _; apply: h.
by rewrite sumr_const card_ord mulr_natr.
Qed.

(* ---- C107: the error of a run ------------------------------------------------- *)
Lemma signs_batches sample b k g : sign_sampler sample ->
  {in flatten (batches sample b k g), forall v, signs v}.
Proof.
move=> hs; elim: k g => [|k IH] g v //=; rewrite mem_cat => /orP[|]; [exact: hs | exact: IH].
Qed.

(* whatever stops the run, the value returned is within hutch_const * (sum of |m_ij|)
   of the exact mean of the quadratic forms of the probes that were drawn *)
Theorem C107_run_error rnd u M batch sample c full cb g x ps :
  relerr rnd u -> 0 <= u -> sample_ok sample -> sign_sampler sample -> (0 < N)%N -> (0 < batch)%N ->
  rhutch rnd tppf zq M batch sample c full cb g (Fin x) ps ->
  let b := if full || cb then batch else 1%N in
  (0 < size ps)%N /\ exists m, [/\ size ps = (m * b)%N, ps = flatten (batches sample b m g) &
   (mean_const u b m <= 1 -> `|x - form_mean M ps| <= hutch_const u N b m * abs_sum M)].
Proof.
move=> hr u0 ok sg N0 b0; rewrite /rhutch [N == 0%N]eqn0Ngt N0 /=; set b := if _ then _ else _.
have {}b0 : (0 < b)%N by rewrite /b; case: ifP.
move=> /(rloop_run ok b0)[k [h [st [ep hf hs hrr [ex _ _]]]]].
have en := rrun_n hrr; have [sz hq] := hf.
have n0 : (0 < size ps)%N.
  by rewrite -sz -en lt0n; move: ex; rewrite /restimate; case: eqP.
split=> //; exists k; split=> //; first by rewrite ep size_flatten_batches.
move=> hc; have -> : x = ra_mu st.
  by move: ex; rewrite /restimate en sz eqn0Ngt n0 => -[].
have skh : size h = k by rewrite -(size_map size) hs size_nseq.
set gg := (1 + u) ^+ (2 * N); have g1 : 1 <= gg by apply: exp1_ge1.
have S0 := abs_sum_ge0 M.
have sgn i : (i < size ps)%N -> signs (nth 0 ps i).
  by move=> hi; apply: (signs_batches sg (b := b) (k := k) (g := g)); rewrite -ep mem_nth.
have err i : (i < size ps)%N -> `|(flatten h)`_i - ((nth 0 ps i)^T *m M *m (nth 0 ps i)) 0 0| <= (gg - 1) * abs_sum M.
  by move=> hi; apply: (quad_err hr u0 (sgn i hi) (hq i hi)).
have bnd : {in flatten h, forall y, `|y| <= gg * abs_sum M}.
  move=> y /(nthP 0)[i hi <-]; rewrite sz in hi.
  have e1 := err i hi; have e2 := form_le M (sgn i hi).
  set w := (_ *m _) 0 0 in e1 e2; have -> : (flatten h)`_i = ((flatten h)`_i - w) + w by ring.
  apply: le_trans (ler_norm_add _ _) _; apply: le_trans (ler_add e1 e2) _.
  by rewrite mulrBl mul1r subrK.
have hb : {in h, forall X, (size X <= b)%N}.
  by move=> X /(map_f size); rewrite hs mem_nseq => /andP[_ /eqP ->].
have B0 : 0 <= gg * abs_sum M by apply: mulr_ge0 => //; apply: le_trans g1.
have := C87_mean_forward_error hr u0 B0 hrr hb bnd; rewrite skh => /(_ hc) e1.
have e2 : `|avg (flatten h) - form_mean M ps| <= (gg - 1) * abs_sum M.
  have -> : form_mean M ps = avg [seq (v^T *m M *m v) 0 0 | v <- ps] by rewrite /form_mean /avg big_map size_map.
  by apply: avg_close => [||i]; rewrite ?size_map sz // => hi; rewrite (nth_map 0) //; apply: err.
have -> : ra_mu st - form_mean M ps = (ra_mu st - avg (flatten h)) + (avg (flatten h) - form_mean M ps) by ring.
apply: le_trans (ler_norm_add _ _) _; apply: le_trans (ler_add e1 e2) _.
by rewrite /hutch_const -/gg [X in _ <= X]mulrDl [X in X <= _]addrC mulrA.
Qed.

(* the constant is of first order in u *)
Lemma exp_lin u (k : nat) : 0 <= u -> k%:R * u <= 1 / 2%:R -> (1 + u) ^+ k - 1 <= 2%:R * k%:R * u.
Proof.
move=> u0; elim: k => [|k IH] hk; first by rewrite expr0 subrr mulr0 mul0r.
have hk' : k%:R * u <= 1 / 2%:R by apply: le_trans hk; rewrite ler_wpmul2r // ler_nat.
have h2 : 2%:R * k%:R * u <= 1.
  by move: hk'; rewrite ler_pdivl_mulr ?ltr0n // mulrC mulrA.
have := ler_wpmul2r (addr_ge0 ler01 u0) (IH hk'); rewrite -subr_ge0 => h.
have -> : k.+1%:R = k%:R + 1 :> F by rewrite -addn1 natrD.
rewrite exprSr -subr_ge0.
have -> : 2%:R * (k%:R + 1) * u - ((1 + u) ^+ k * (1 + u) - 1) =
   (2%:R * k%:R * u * (1 + u) - ((1 + u) ^+ k - 1) * (1 + u)) + u * (1 - 2%:R * k%:R * u) by ring.
by apply: addr_ge0 => //; apply: mulr_ge0; rewrite ?subr_ge0.
Qed.

Theorem C107_first_order u (n b m : nat) : 0 <= u -> 6%:R * u <= 1 -> (4 * n)%:R * u <= 1 -> (2 * b)%:R * u <= 1 ->
  mean_const u b m <= (2 * b + 24 + 3 * m)%:R * u /\
  hutch_const u n b m <= (4 * n + 4 * b + 48 + 6 * m)%:R * u.
Proof.
move=> u0 u6 nu bu.
have half (k : nat) : (2 * k)%:R * u <= 1 -> k%:R * u <= 1 / 2%:R.
  by move=> h; rewrite ler_pdivl_mulr ?ltr0n // mulrC mulrA -natrM.
have e3 := exp_lin u0 (half 3%N u6); have eb := exp_lin u0 (half b bu).
have en : (1 + u) ^+ (2 * n) - 1 <= 2%:R * (2 * n)%:R * u by apply: exp_lin => //; apply: half; rewrite mulnA.
have hm : mean_const u b m <= (2 * b + 24 + 3 * m)%:R * u.
  rewrite /mean_const -subr_ge0; rewrite -subr_ge0 in eb; rewrite -subr_ge0 in e3.
  have -> : (2 * b + 24 + 3 * m)%:R * u - ((1 + u) ^+ b - 1 + 4%:R * ((1 + u) ^+ 3 - 1) + 3%:R * u * m%:R) =
    (2%:R * b%:R * u - ((1 + u) ^+ b - 1)) + 4%:R * (2%:R * 3%:R * u - ((1 + u) ^+ 3 - 1)).
    have -> : (2 * b + 24 + 3 * m)%:R = 2%:R * b%:R + 24%:R + 3%:R * m%:R :> F.
      by rewrite (natrD _ (2 * b + 24)) (natrD _ (2 * b)) (natrM _ 2 b) (natrM _ 3 m).
    by ring.
  by apply: addr_ge0 => //; apply: mulr_ge0; rewrite ?ler0n.
split=> //; rewrite /hutch_const.
have g2 : (1 + u) ^+ (2 * n) <= 2%:R.
  rewrite -ler_subl_addr; apply: le_trans en _; rewrite -natrM mulnA; exact: nu.
have g0 : 0 <= (1 + u) ^+ (2 * n) := le_trans ler01 (exp1_ge1 _ u0).
have h1 := le_trans (ler_wpmul2r g0 hm) (ler_wpmul2l (mulr_ge0 (ler0n _ _) u0) g2).
apply: le_trans (ler_add en h1) _; rewrite le_eqVlt; apply/orP; left; apply/eqP.
have -> : (2 * b + 24 + 3 * m)%:R = 2%:R * b%:R + 24%:R + 3%:R * m%:R :> F.
  by rewrite (natrD _ (2 * b + 24)) (natrD _ (2 * b)) (natrM _ 2 b) (natrM _ 3 m).
have -> : (4 * n + 4 * b + 48 + 6 * m)%:R = 4%:R * n%:R + 4%:R * b%:R + 48%:R + 6%:R * m%:R :> F.
  by rewrite (natrD _ (4 * n + 4 * b + 48)) (natrD _ (4 * n + 4 * b)) (natrD _ (4 * n)) (natrM _ 4 n) (natrM _ 4 b) (natrM _ 6 m).
by rewrite (natrM _ 2 n); ring.
Qed.

(* ---- C107: two runs on the same probes ---------------------------------------- *)
(* different batches, orders of addition, criteria: how much they can differ *)
Theorem C107_same_probes rnd u M sample c c' batch batch' full full' cb cb' g x y ps :
  relerr rnd u -> 0 <= u -> sample_ok sample -> sign_sampler sample -> (0 < N)%N -> (0 < batch)%N -> (0 < batch')%N ->
  rhutch rnd tppf zq M batch sample c full cb g (Fin x) ps ->
  rhutch rnd tppf zq M batch' sample c' full' cb' g (Fin y) ps ->
  let b := if full || cb then batch else 1%N in let b' := if full' || cb' then batch' else 1%N in
  exists m m', [/\ size ps = (m * b)%N, size ps = (m' * b')%N &
    mean_const u b m <= 1 -> mean_const u b' m' <= 1 ->
    `|x - y| <= (hutch_const u N b m + hutch_const u N b' m') * abs_sum M].
Proof.
move=> hr u0 ok sg N0 b0 b0' h h' b b'.
have [_ [m [e1 _ f1]]] := C107_run_error hr u0 ok sg N0 b0 h.
have [_ [m' [e2 _ f2]]] := C107_run_error hr u0 ok sg N0 b0' h'.
exists m, m'; split=> // /f1 {}f1 /f2 {}f2.
have -> : x - y = (x - form_mean M ps) - (y - form_mean M ps) by ring.
apply: le_trans (ler_norm_sub _ _) _; apply: le_trans (ler_add f1 f2) _.
by rewrite [X in _ <= X]mulrDl.
Qed.

(* ---- C107: runs exist and end -------------------------------------------------- *)
Lemma rquad_total rnd M (v : 'cV[F]_N) : exists r, rquad rnd (mx_rows M) (entries v) r.
Proof.
have [w hw] : exists w : seq F, size w = size (mx_rows M) /\ forall i, (i < size (mx_rows M))%N ->
    dotv rnd [seq p.1 * p.2 | p <- zip (nth [::] (mx_rows M) i) (entries v)] w`_i.
  elim: (mx_rows M) => [|r A [w [sw hw]]]; first by exists [::].
  have [a ha] := dotv_total rnd [seq p.1 * p.2 | p <- zip r (entries v)].
  by exists (a :: w); split=> [|[|i]] /=; [rewrite sw | | exact: hw].
have [r hr] := dotv_total rnd [seq p.1 * p.2 | p <- zip (entries v) w].
by case: hw => sw hw; exists r, w.
Qed.

Lemma rforms_total rnd M vs : exists xs, rforms rnd M vs xs.
Proof.
elim: vs => [|v vs [xs [sx hx]]]; first by exists [::].
have [r hr] := rquad_total rnd M v.
by exists (r :: xs); split=> [|[|i]] /=; [rewrite sx | | exact: hx].
Qed.

Lemma rupdate_total rnd st X : exists st', rupdate rnd st X st'.
Proof.
have [s hs] := sumv_total rnd X.
have [q hq] := dotv_total rnd [seq y * y | y <- rcentered rnd (rbatch_mean rnd s (size X)) X].
by eexists; exists s, q; split.
Qed.

Lemma rloop_total rnd M sample b c n : sample_ok sample -> (0 < b)%N -> stops_by rnd tppf zq c n ->
  forall g st ps, exists x qs, rloop rnd tppf zq M sample b c g st ps x qs.
Proof.
move=> ok b0 hn g st ps; have [k] := ubnP (n - ra_n st).
elim: k => // k IH in g st ps *; rewrite ltnS => hk.
have [hc|hc] := boolP (rcall rnd tppf zq c st); first by eexists; eexists; apply: RStop.
have [xs hx] := rforms_total rnd M (sample b g).1.
have [st' hu] := rupdate_total rnd st xs.
have sx : size xs = b by case: hx => -> _; rewrite ok.
have lt : (ra_n st < n)%N by rewrite ltnNge; apply: contra hc; apply: hn.
have [|x [qs hl]] := IH (sample b g).2 st' (ps ++ (sample b g).1).
  by case: hu => s [q [_ _ ->]] /=; rewrite sx; lia.
by exists x, qs; apply: (RStep hc hx hu hl).
Qed.

(* a run with a bounded criterion returns, and draws fewer than n + b probes *)
Theorem C107_returns rnd M batch sample c n full cb g :
  sample_ok sample -> (0 < N)%N -> (0 < batch)%N -> (0 < n)%N -> stops_by rnd tppf zq c n ->
  (exists x ps, rhutch rnd tppf zq M batch sample c full cb g x ps) /\
  (forall x ps, rhutch rnd tppf zq M batch sample c full cb g x ps ->
     (size ps < n + (if full || cb then batch else 1))%N /\
     if rcall rnd tppf zq c (racc0 F) then x = NaN /\ ps = [::] else exists y, x = Fin y).
Proof.
move=> ok N0 b0 n0 hn; rewrite /rhutch [N == 0%N]eqn0Ngt N0 /=; set b := if _ then _ else _.
have {}b0 : (0 < b)%N by rewrite /b; case: ifP.
split; first exact: (rloop_total M ok b0 hn).
move=> x ps /(rloop_run ok b0)[k [h [st [ep hf hs hrr [ex hc hj]]]]].
have en := rrun_n hrr; rewrite size_flatten /shape hs sumn_nseq in en.
rewrite ep size_flatten_batches //; case: k => [|k] in ep hs hj en *.
  have h0 : h = [::] by case: (h) hs.
  rewrite h0 in hrr; rewrite (rrun_nil hrr) in hc ex; rewrite hc mul0n ltn_addr //; split=> //; split=> //.
split; last first.
  have [st0 h0 /negbTE h1] := hj 0%N isT; rewrite take0 in h0; rewrite (rrun_nil h0) in h1; rewrite h1.
  by exists (ra_mu st); rewrite ex /restimate en muln_eq0 eqn0Ngt b0.
have [st' hr' hc'] := hj k (ltnSn k).
have : (ra_n st' < n)%N by rewrite ltnNge; apply: contra hc'; apply: hn.
rewrite (rrun_n hr') size_flatten /shape map_take hs take_nseq ?leqnSn // sumn_nseq mulnC mulSn; lia.
Qed.

Lemma default_stops rnd : stops_by rnd tppf zq (rdefault F) 200.
Proof. by move=> st h; rewrite /rcall /= lez_nat h. Qed.

Lemma count_stops rnd (n : int) : stops_by rnd tppf zq (RCount F n) `|n|.
Proof. by move=> st h; rewrite /=; lia. Qed.

(* hutch(A) with its default arguments, n = A.shape[0] *)
Theorem C107_default rnd u M sample g x ps :
  relerr rnd u -> 0 <= u -> 626%:R * u <= 1 -> (4 * N)%:R * u <= 1 ->
  sample_ok sample -> sign_sampler sample -> (0 < N)%N ->
  rhutch rnd tppf zq M 32 sample (rdefault F) false false g (Fin x) ps ->
  (0 < size ps <= 200)%N /\ `|x - form_mean M ps| <= (4 * N + 1252)%:R * u * abs_sum M.
Proof.
move=> hr u0 u1 Nu ok sg N0 h.
have [n0 [m [em _ herr]]] := C107_run_error hr u0 ok sg N0 (erefl : (0 < 32)%N) h.
have := (C107_returns M false false g ok N0 (erefl : (0 < 32)%N) (erefl : (0 < 200)%N) (default_stops rnd)).2 _ _ h.
rewrite /= addn1 ltnS => -[hm _]; rewrite /= muln1 in em; split; first by rewrite n0.
have m200 : (m <= 200)%N by rewrite -em.
have le (j : nat) : (j <= 626)%N -> j%:R * u <= 1.
  by move=> hj; apply: le_trans u1; rewrite ler_wpmul2r // ler_nat.
have [c1 c2] := C107_first_order m u0 (le 6%N isT) Nu (le 2%N isT : (2 * 1)%:R * u <= 1).
have {}herr : `|x - form_mean M ps| <= hutch_const u N 1 m * abs_sum M.
  by apply: herr; apply: le_trans c1 _; apply: le; rewrite /=; lia.
apply: le_trans herr _; apply: ler_wpmul2r; first exact: abs_sum_ge0.
by apply: le_trans c2 _; apply: ler_wpmul2r => //; rewrite ler_nat; lia.
Qed.

(* ---- C107: without rounding this is the exact model ------------------------------ *)
Lemma rquad_id M v r : rquad (@id F) (mx_rows M) (entries v) r -> r = (v^T *m M *m v) 0 0.
Proof.
case=> w [sw hw /dotv_id ->]; rewrite -qform_rows /qform size_rows.
have se : size (entries v) = N by rewrite size_map size_enum_ord.
have sw' : size w = N by rewrite sw size_rows.
rewrite big_map (zip_sum (fun a b => a * b) se sw'); apply: eq_bigr => i _; congr (_ * _).
rewrite (dotv_id (hw i _)) ?size_rows // big_map (zip_sum (fun a b => a * b) _ se) //.
by apply: (rows_square M).2; rewrite mem_nth // size_rows.
Qed.

Lemma rforms_id M vs xs : rforms (@id F) M vs xs -> xs = [seq (v^T *m M *m v) 0 0 | v <- vs].
Proof.
case=> sx hx; apply: (@eq_from_nth _ 0) => [|i hi]; first by rewrite size_map.
by rewrite (nth_map 0) -?sx //; apply: rquad_id; apply: hx; rewrite -sx.
Qed.

Lemma take_batches sample b j k g : (j <= k)%N -> take j (batches sample b k g) = batches sample b j g.
Proof. by elim: j k g => [|j IH] [|k] g //= jk; rewrite IH. Qed.

Lemma call_exact M r bs st c : all (fun vs => 0 < size vs)%N bs ->
  rrun (@id F) [seq [seq (v^T *m M *m v) 0 0 | v <- vs] | vs <- bs] st ->
  crit_call tppf zq (exact_crit c) (mest_view (est_after r (Oper M None) bs)) = Ok (rcall (@id F) tppf zq c st).
Proof.
move=> hb hr; set A := Oper M None; set h := map _ bs in hr.
have en := rrun_n hr.
have el : size (flatten h) = size (flatten bs).
  by rewrite /h; elim: (bs) => //= vs l IH; rewrite !size_cat size_map IH.
elim: c => [n|conf a rt|c1 IH1 c2 IH2|c1 IH1 c2 IH2|c1 IH1] /=; try by rewrite ?IH1 ?IH2.
  by rewrite /count_call /= all_rows_fed size_map en el.
have hx := est_after_run r A hb.
have nh : nonempty_hist (fed A bs).
  by rewrite /nonempty_hist /fed all_map; apply/allP => vs /(allP hb) /=; rewrite /rows_of /= !size_map.
have ea : Spec.col_of (all_rows (fed A bs)) 0 = flatten h.
  rewrite all_rows_fed /Spec.col_of -map_comp /h map_flatten.
  by congr flatten; apply: eq_map => vs /=; apply: eq_map => v /=; apply: quad_formE.
rewrite /conf_call /=; case: (ltnP (ra_n st) 3) => h3.
  by rewrite /conf_error /= all_rows_fed size_map -el -en h3.
have h3' : (3 <= size (Spec.col_of (all_rows (fed A bs)) 0))%N by rewrite ea -en.
rewrite (conf_error_dim1 tppf zq conf nh hx h3') /= ea.
have hn0 : h != [::] by case: (h) en h3 => //= ->.
have h1 : (1 < size (flatten h))%N by rewrite -en; apply: leq_trans h3.
have [_ emu _ /(_ h1) em] := C86_exact_results 1 (rscore tppf zq conf (ra_n st)) hr hn0.
have [_ _ _ /(_ h1) em1] := C86_exact_results 1 1 hr hn0.
have es : rstd_error (@id F) st = Fin (Spec.std_err (flatten h)).
  by move: em1; rewrite /rmargin; case: (rstd_error _ _) => // se [] /=; rewrite !mul1r => ->.
rewrite em /rrel_error es emu /= -en /conf_score /rscore; congr (Ok (_ || _)).
Qed.

Theorem C107_exact M batch sample c r full cb g x ps :
  sample_ok sample -> (0 < N)%N -> (0 < batch)%N ->
  rhutch (@id F) tppf zq M batch sample c full cb g x ps ->
  exists fuel out,
    [/\ hutch tppf zq fuel (Oper M None) batch%:Z sample (exact_crit c) r full cb g = Some (Ok out),
        ret_value (run_ret out) = PFloat x & run_probes out = ps].
Proof.
move=> ok N0 b0; rewrite /rhutch [N == 0%N]eqn0Ngt N0 /=; set b := if _ then _ else _.
have eb : eff full cb batch%:Z = b by [].
have {}b0' : (0 < b)%N by rewrite /b; case: ifP.
move=> /(rloop_run ok b0')[k [h [st [ep /rforms_id hf hs hrr [ex hc hj]]]]].
have eh : h = [seq [seq (v^T *m M *m v) 0 0 | v <- vs] | vs <- batches sample b k g].
  apply: eq_from_flatten_shape; first by rewrite hf ep map_flatten.
  rewrite /shape hs -map_comp; elim: (k) (g) => //= j IH g'; rewrite size_map ok; congr (_ :: _); exact: IH.
have call j st' : (j <= k)%N -> rrun (@id F) (take j h) st' ->
    crit_call tppf zq (exact_crit c) (mest_view (est_after r (Oper M None) (batches sample b j g))) =
    Ok (rcall (@id F) tppf zq c st').
  by move=> jk; rewrite eh -map_take take_batches // => /call_exact; apply; apply: all_batches.
have tk : take k h = h by rewrite take_oversize // eh size_map size_batches.
exists k.+1; eexists; split.
- apply: (hutch_stop ok N0 _ (ltnSn k)) => // [j jk|].
    have [st' h1 h2] := hj j jk; rewrite eb (call j st') ?(negbTE h2) // ltnW //.
  by rewrite eb (call k st) ?hc // tk.
- rewrite /= eb; set R := mest_estimate _; have -> : ret_value (if full || cb then TPair R (EResult (Some (est_after r (Oper M None) (batches sample b k g))) (PFloat (Fin 0)) 0) else TScalar R) = R by case: ifP.
  rewrite /R est_estimate; last exact: all_batches.
  rewrite ex /restimate (rrun_n hrr) hf size_map -ep.
  case: ps => [|v ps] //= in ep hf *; congr (PFloat (Fin _)).
  have hn0 : h != [::] by apply: contra_eq_neq hf => ->.
  have [_ -> _ _] := C86_exact_results 1 0 hrr hn0.
  by rewrite hf /= /qf /=.
- by rewrite /= eb ep.
Qed.

(* ---- C107: against the exact value ------------------------------------------------ *)
Lemma count_probes rnd M batch sample (n : int) full cb g x ps :
  sample_ok sample -> (0 < N)%N -> (0 < batch)%N -> rhutch rnd tppf zq M batch sample (RCount F n) full cb g x ps ->
  let b := eff full cb batch%:Z in ps = flatten (batches sample b (nbatch n b) g).
Proof.
move=> ok N0 b0; rewrite /rhutch [N == 0%N]eqn0Ngt N0 /= -[if _ then _ else _]/(eff full cb batch%:Z).
have {}b0 : (0 < eff full cb batch%:Z)%N by apply: eff_gt0.
set b := eff _ _ _ in b0 *.
move=> /(rloop_run ok b0)[k [h [st [-> hf hs hrr [_ /= hc hj]]]]].
suff -> : k = nbatch n b by [].
have sz j st' : (j <= k)%N -> rrun rnd (take j h) st' -> ra_n st' = (j * b)%N.
  by move=> jk /rrun_n ->; rewrite size_flatten /shape map_take hs take_nseq // sumn_nseq mulnC.
have skh : size h = k by rewrite -(size_map size) hs size_nseq.
apply/eqP; rewrite eqn_leq; apply/andP; split; last first.
  by rewrite -nbatchP // -(sz k st) // take_oversize ?skh.
rewrite leqNgt; apply/negP => lt.
have [st' h1 /= /negP] := hj _ lt; apply.
by rewrite (sz _ _ (ltnW lt) h1) nbatchP.
Qed.

(* the value rounded arithmetic returns and the one exact arithmetic returns, same seed *)
Theorem C107_count rnd u M fuel batch sample (n : int) r full cb g x y ps :
  relerr rnd u -> 0 <= u -> sample_ok sample -> sign_sampler sample -> (0 < N)%N -> (0 < batch)%N -> 0 < n ->
  let b := eff full cb batch%:Z in let m := nbatch n b in (m < fuel)%N -> mean_const u b m <= 1 ->
  rhutch rnd tppf zq M batch sample (RCount F n) full cb g (Fin x) ps ->
  value_is (hutch tppf zq fuel (Oper M None) batch%:Z sample (CCount F n) r full cb g) y ->
  `|x - y| <= hutch_const u N b m * abs_sum M.
Proof.
move=> hr u0 ok sg N0 b0 n0 b m hf hc h [out [ho hy]].
have ep := count_probes ok N0 b0 h.
have [_ [m' [e1 e2 e3]]] := C107_run_error hr u0 ok sg N0 b0 h.
have em : m' = m.
  have bp : (0 < b)%N by apply: eff_gt0.
  move: e1; rewrite ep size_flatten_batches // => /eqP; rewrite -[if _ then _ else _]/b eqn_pmul2r // => /eqP <- //.
rewrite em -[if _ then _ else _]/b in e3; have {}e3 := e3 hc.
have [out' [ho' [pp _ vv]]] := @count_value F G tppf zq N fuel (Oper M None) batch%:Z sample n r full cb g ok N0 b0 hf n0.
have eo : out' = out by move: ho'; rewrite ho => -[].
move: hy; rewrite -eo vv => -[<-]; rewrite pp -ep.
suff -> : Spec.avg [seq qf (Oper M None) v | v <- ps] = form_mean M ps by [].
by rewrite /Spec.avg big_map size_map.
Qed.

(* a diagonal matrix: rounding is the only error *)
Theorem C107_diagonal rnd u (d : 'rV[F]_N) batch sample c full cb g x ps :
  relerr rnd u -> 0 <= u -> sample_ok sample -> sign_sampler sample -> (0 < N)%N -> (0 < batch)%N ->
  rhutch rnd tppf zq (diag_mx d) batch sample c full cb g (Fin x) ps ->
  let b := if full || cb then batch else 1%N in
  exists m, size ps = (m * b)%N /\
    (mean_const u b m <= 1 -> `|x - \sum_i d 0 i| <= hutch_const u N b m * \sum_i `|d 0 i|).
Proof.
move=> hr u0 ok sg N0 b0 h b.
have [n0 [m [e1 e2 e3]]] := C107_run_error hr u0 ok sg N0 b0 h; exists m; split=> // /e3.
have -> : abs_sum (diag_mx d) = \sum_i `|d 0 i|.
  apply: eq_bigr => i _; rewrite (bigD1 i) //= mxE eqxx mulr1n big1 ?addr0 // => j ji.
  by rewrite mxE eq_sym (negPf ji) mulr0n normr0.
suff -> : form_mean (diag_mx d) ps = \sum_i d 0 i by [].
have -> : form_mean (diag_mx d) ps = (\sum_(v <- ps) \sum_i d 0 i) / (size ps)%:R.
  congr (_ / _); rewrite big_seq [RHS]big_seq; apply: eq_bigr => v hv.
  rewrite mxE; apply: eq_bigr => i _; rewrite mul_mx_diag mxE mxE.
  by rewrite e2 in hv; case: (signs_batches sg hv i) => ->; rewrite ?mulN1r ?mulrN1 ?opprK ?mul1r ?mulr1.
set T := \sum_i _; rewrite big_const_seq count_predT iter_addr_0 -[T *+ _]mulr_natr mulfK // pnatr_eq0 -lt0n //.
Qed.

End Props.

(* ---- C107: how often rounded hutch is far from the trace ---------------------------- *)
Section Tail.
Variable F : rcfType.
Variables (X : finType) (ux : X -> rat) (flip : X -> X).
Hypothesis uP : forall x, 0 <= ux x < 1.
Hypothesis flipK : involutive flip.
Hypothesis flipP : forall x, (ux (flip x) < 1 / 2%:R) = ~~ (ux x < 1 / 2%:R).
Hypothesis X0 : (0 < #|X|)%N.
Variable gauss : seq X -> F * seq X.
Variables (tppf : F -> nat -> F) (zq : F -> F).
Variable N : nat.
Local Notation S := (iso_sampler (tape_unif ux) gauss N Rademacher).
Local Notation drawn full cb batch n := (nbatch n (eff full cb batch) * eff full cb batch)%N.

(* all but few of the equally likely tapes: whatever order the additions happen in, the value is within
   e plus the rounding of the trace *)
Theorem C107_tail rnd u (M : 'M[F]_N) (batch : nat) (n : int) full cb L (e : F) :
  relerr rnd u -> 0 <= u -> (0 < N)%N -> (0 < batch)%N -> 0 < n -> (drawn full cb batch%:Z n * N <= L)%N -> M^T = M -> 0 < e ->
  let b := eff full cb batch%:Z in mean_const u b (nbatch n b) <= 1 ->
  exists bad : seq X -> bool,
    fraction F L bad <= 2%:R * (\sum_i \sum_(j | j != i) M i j ^+ 2) / ((drawn full cb batch%:Z n)%:R * e ^+ 2) /\
    forall t : L.-tuple X, ~~ bad t -> forall x ps,
      rhutch rnd tppf zq M batch S (RCount F n) full cb (t : seq X) (Fin x) ps ->
      `|x - \tr M| < e + hutch_const u N b (nbatch n b) * abs_sum M.
Proof.
move=> hr u0 N0 b0 n0 hL sy e0 b hc.
have [val [hv ht]] := C94_tail uP flipK flipP X0 gauss tppf zq false N0 (b0 : 0 < batch%:Z) n0 (ltnSn _) hL sy.
exists (fun t => e <= `|val t - \tr M|); split; first exact: ht.
move=> t; rewrite -ltNge => hb x ps h.
have up t' : 0 <= (tape_unif ux t').1 < 1 by case: t' => [|y l] /=; rewrite ?lexx ?ltr01.
have sg : sign_sampler S by move=> k g v h'; apply: (rademacher_probe up h').
have := C107_count hr u0 (@iso_sample_ok _ _ _ gauss N Rademacher) sg N0 b0 n0 (ltnSn _) hc h (hv t) => h1.
have -> : x - \tr M = (val t - \tr M) + (x - val t) by ring.
by apply: le_lt_trans (ler_norm_add _ _) _; apply: ltr_le_add.
Qed.
End Tail.

(* ---- C107: the batch size changes the value ----------------------------------------- *)
Section Refute.
Variable F : rcfType.
Variables (tppf : F -> nat -> F) (zq : F -> F).

(* every probe is (1) *)
Definition ones_sampler : sampler F unit 1 := fun k g => (nseq k (const_mx 1), g).
Lemma ones_ok : sample_ok ones_sampler.
Proof. by move=> k g; rewrite size_nseq. Qed.
Lemma ones_sign : sign_sampler ones_sampler.
Proof. by move=> k g v; rewrite mem_nseq => /andP[_ /eqP ->] i; left; rewrite mxE. Qed.

Lemma rrun_inv (rnd : F -> F) h st : rrun rnd h st -> forall h' Y, h = rcons h' Y ->
  exists2 st0, rrun rnd h' st0 & rupdate rnd st0 Y st.
Proof. by case=> [[]|h1 st1 Y1 st2 hr _ hu h' Y /rcons_inj[<- <-]] //; exists st1. Qed.

Lemma form1 (rnd : F -> F) (a : F) k : rnd a = a ->
  rforms rnd (const_mx a : 'M_1) (nseq k (const_mx 1)) (nseq k a).
Proof.
move=> ra; split=> [|i]; rewrite ?size_nseq // => hi; rewrite !nth_nseq hi.
have en : enum 'I_1 = [:: 0] by apply: (inj_map val_inj); rewrite val_enum_ord.
rewrite /rquad /mx_rows /entries en /= !mxE; exists [:: a]; split=> // [[|//] _|] /=.
  by rewrite mulr1 -[X in dotv _ _ X]ra; apply: Dot1.
by rewrite mul1r -[X in dotv _ _ X]ra; apply: Dot1.
Qed.

Local Notation B4 := (@bad4 F).

(* the same probes in three batches of one and in one batch of three: 14 and 13.  The rounding is monotone, has
   relative error at most 1/16 and is exact on the integers up to 40 *)
Theorem C107_batch_size_refuted :
  exists rnd, [/\ {homo rnd : x y / x <= y}, relerr rnd (1 / 16%:R), int_exact rnd 40 &
    exists M ps,
      rhutch rnd tppf zq M 3 ones_sampler (RCount F 3) false false tt (Fin 14%:R) ps /\
      rhutch rnd tppf zq M 3 ones_sampler (RCount F 3) true false tt (Fin 13%:R) ps].
Proof.
have b14 : B4 14%:R = 14%:R := @bad4_int F 14%:Z isT.
have b0 : B4 0 = 0 := @bad4_int F 0%:Z isT.
have b1 : B4 1 = 1 := @bad4_int F 1%:Z isT.
exists B4; split; [exact: bad4_mono | exact: bad4_relerr | exact: bad4_int |].
exists (const_mx 14%:R), (nseq 3 (const_mx 1)); split.
  have up k : rupdate B4 (if k is 0%N then racc0 F else MkRacc k 14%:R 0) [:: 14%:R] (MkRacc k.+1 14%:R 0).
    have [st hst] : exists st, rrun B4 (nseq k.+1 [:: 14%:R]) st.
      by apply: rrun_total => Y; rewrite mem_nseq => /andP[_ /eqP ->].
    have es := C86_constant_exact b0 b1 b14 hst.
    have ek : nseq k.+1 [:: 14%:R : F] = rcons (nseq k [:: 14%:R]) [:: 14%:R] by rewrite -cats1 -(nseqD k 1) addn1.
    have [st0 h0] := rrun_inv hst ek; rewrite es; suff -> : st0 = if k is 0%N then racc0 F else MkRacc k 14%:R 0 by [].
    case: k {es ek hst} h0 => [h0|k h0]; last exact: (C86_constant_exact b0 b1 b14 h0).
    exact: (rrun_nil h0).
  rewrite /rhutch /=.
  apply: (@RStep _ _ _ _ _ _ _ _ _ _ _ _ _ [:: 14%:R]) => //; [exact: (form1 1 b14) | exact: (up 0%N) |].
  apply: (@RStep _ _ _ _ _ _ _ _ _ _ _ _ _ [:: 14%:R]) => //; [exact: (form1 1 b14) | exact: (up 1%N) |].
  apply: (@RStep _ _ _ _ _ _ _ _ _ _ _ _ _ [:: 14%:R]) => //; [exact: (form1 1 b14) | exact: (up 2%N) |].
  by have := @RStop F B4 unit tppf zq 1 (const_mx 14%:R) ones_sampler 1 (RCount F 3) tt (MkRacc 3 14%:R 0)
    (nseq 3 (const_mx 1)) isT.
have b28 : B4 28%:R = 28%:R := @bad4_int F 28%:Z isT.
have b13' : B4 13%:R = 13%:R := @bad4_int F 13%:Z isT.
have b42 : B4 42%:R = 40%:R.
  rewrite /bad4 {2}/flat ler_nat lexx /= /flat [X in _ && X]lt_geF ?andbF //.
  by apply: lt_trans (h403 F) _; rewrite ltr_nat.
have b13 : B4 (40%:R / 3%:R) = 13%:R.
  rewrite /bad4 {2}/flat lt_geF /=; last by apply: lt_trans (h403 F) _; rewrite ltr_nat.
  by rewrite /flat h133 lexx.
have hs : sumv B4 (nseq 3 14%:R) 40%:R.
  have -> : nseq 3 (14%:R : F) = [:: 14%:R; 14%:R] ++ [:: 14%:R] by [].
  rewrite -b42 [in 42%:R](_ : 42 = 28 + 14)%N // natrD; apply: SumAdd => //; last exact: Sum1.
  rewrite -b28 [in 28%:R](_ : 28 = 14 + 14)%N // natrD.
  by apply: (@SumAdd _ _ [:: _] [:: _]) => //; apply: Sum1.
have [q hq] := dotv_total B4 [seq y * y | y <- rcentered B4 (rbatch_mean B4 40%:R 3) (nseq 3 14%:R)].
pose st := MkRacc 3 (13%:R : F) (rS_step B4 0 3 0 (rbatch_mean B4 40%:R 3) 0 q).
have hu : rupdate B4 (racc0 F) (nseq 3 14%:R) st.
  exists 40%:R, q; split=> //; congr MkRacc.
  by rewrite /= /rbatch_mean b13 /rmu_step /rdelta add0n divff ?pnatr_eq0 // b1 subr0 b13' mul1r b13' add0r b13'.
rewrite /rhutch /=.
apply: (@RStep _ _ _ _ _ _ _ _ _ _ _ _ _ (nseq 3 14%:R)) => //; [exact: (form1 3 b14) | exact: hu |].
exact: (@RStop F B4 unit tppf zq 1 (const_mx 14%:R) ones_sampler 3 (RCount F 3) tt st (nseq 3 (const_mx 1)) isT).
Qed.
End Refute.

(* ---- concrete cases ------------------------------------------------------------------ *)
Section Examples.
Variable F : rcfType.
Variables (tppf : F -> nat -> F) (zq : F -> F).

(* every operation too large by one part in 2^20 *)
Definition u20 : F := 1024%:R^-1 ^+ 2.
Definition up20 (x : F) : F := x * (1 + u20).

Lemma u20_ge0 : 0 <= u20.
Proof. by rewrite exprn_ge0 // invr_ge0 ler0n. Qed.
Lemma up20_relerr : relerr up20 u20.
Proof.
move=> x; have -> : up20 x - x = u20 * x by rewrite /up20; ring.
by rewrite normrM ger0_norm // u20_ge0.
Qed.
Lemma u20_le (j : nat) : (j <= 1024)%N -> j%:R * u20 <= 1.
Proof.
move=> hj; have i0 : 0 <= 1024%:R^-1 :> F by rewrite invr_ge0 ler0n.
rewrite /u20 expr2 mulrA; apply: mulr_ile1 => //; rewrite ?mulr_ge0 ?ler0n //.
  by rewrite ler_pdivr_mulr ?ltr0n // mul1r ler_nat.
by rewrite invf_le1 ?ltr0n // (ler_nat _ 1).
Qed.

(* [[1,3],[3,4]] *)
Definition M34 : 'M[F]_2 := \matrix_(i, j) (if i == j then (3 * i + 1)%:R else 3%:R).
Lemma M34_abs : abs_sum M34 = 11%:R.
Proof.
rewrite /abs_sum !big_ord_recl !big_ord0 !mxE /=.
by rewrite !normr_nat !addr0 -!natrD.
Qed.

(* the default call, with alternating draws 1/4 and 3/4 *)
Example C107_default_ex (gauss : nat -> F * nat) :
  exists x ps, rhutch up20 tppf zq M34 32 (iso_sampler altu gauss 2 Rademacher) (rdefault F) false false 0%N (Fin x) ps /\
    (0 < size ps <= 200)%N /\ `|x - form_mean M34 ps| <= 1260%:R * u20 * 11%:R.
Proof.
set S := iso_sampler _ _ _ _; have ok : sample_ok S := @iso_sample_ok _ _ _ _ _ _.
have sg : sign_sampler S by move=> k g v h; apply: (rademacher_probe (fun g => altu_unit g) h).
have [[x [ps h]] hf] := C107_returns M34 false false 0%N ok (erefl : (0 < 2)%N) (erefl : (0 < 32)%N)
  (erefl : (0 < 200)%N) (@default_stops F tppf zq up20).
have [_ /=] := hf x ps h; case=> y ey; rewrite ey in h; exists y, ps; split=> //.
by have := C107_default up20_relerr u20_ge0 (u20_le (isT : 626 <= 1024)%N) (u20_le (isT : 4 * 2 <= 1024)%N) ok sg erefl h;
  rewrite M34_abs.
Qed.

(* 100 probes one at a time, tapes of 200 draws from {0, 1/2}: for 64 of 100 tapes every order of additions
   ends within 1 + 660 * 11 * 2^-20 of the trace 5 *)
Example C107_tail_ex gauss :
  exists bad : seq 'I_2 -> bool, fraction F 200 bad <= 36%:R / 100%:R /\
    forall t : 200.-tuple 'I_2, ~~ bad t -> forall x ps,
      rhutch up20 tppf zq M34 32 (iso_sampler (tape_unif (@grid_u 1)) gauss 2 Rademacher) (RCount F 100) false false
        (t : seq _) (Fin x) ps ->
      `|x - 5%:R| < 1 + 660%:R * u20 * 11%:R.
Proof.
have sy : M34^T = M34 by apply/matrixP => i j; rewrite !mxE eq_sym; case: eqP => // ->.
have tr : \tr M34 = 5%:R by rewrite /mxtrace !big_ord_recl big_ord0 !mxE /= addr0 -natrD.
have [c1 c2] := C107_first_order 100 u20_ge0 (u20_le (isT : 6 <= 1024)%N) (u20_le (isT : 4 * 2 <= 1024)%N)
  (u20_le (isT : 2 * 1 <= 1024)%N).
have mc : mean_const u20 1 100 <= 1 by apply: le_trans c1 _; apply: u20_le.
have [|bad [h1 h2]] := @C107_tail F _ _ _ (@grid_uP 1 erefl) (@grid_flipK 1) (@grid_flipP 1 erefl) (@grid_card 1 erefl)
  gauss tppf zq 2 up20 u20 M34 32 100 false false 200 1 up20_relerr u20_ge0 erefl erefl erefl erefl sy ltr01.
  exact: mc.
exists bad; split.
  apply: le_trans h1 _.
  have -> : \sum_i \sum_(j | j != i) M34 i j ^+ 2 = 18%:R.
    by under eq_bigr => i _ do rewrite big_mkcond !big_ord_recl big_ord0; rewrite !big_ord_recl big_ord0 !mxE /=; ring.
  by rewrite expr1n mulr1 -natrM.
move=> t hb x ps h; have := h2 t hb x ps h; rewrite tr M34_abs => /lt_le_trans; apply.
by rewrite ler_add2l; apply: ler_wpmul2r; rewrite ?ler0n.
Qed.
End Examples.

Print Assumptions C107_run_error.
Print Assumptions C107_first_order.
Print Assumptions C107_same_probes.
Print Assumptions C107_returns.
Print Assumptions C107_default.
Print Assumptions C107_exact.
Print Assumptions C107_count.
Print Assumptions C107_diagonal.
Print Assumptions C107_tail.
Print Assumptions C107_batch_size_refuted.
