(* Property C101: the confidence level and the tolerances say nothing about the
   error; a fixed share of all tapes stops at once, as far off as one likes. *)
From Coq Require Import String.
From mathcomp Require Import all_ssreflect all_algebra zify ring.
From Verif Require Import Base Spec ModelStats LemStats PropStats ModelEstimators LemEstimators LemEst2
  PropEstimators ModelTyping ModelRandom ModelTrace LemTrace PropTrace PropUnbiased PropTail PropDiag PropSLQ PropStop.
Set Implicit Arguments.
Unset Strict Implicit.
Unset Printing Implicit Defensive.
Import Order.TTheory GRing.Theory Num.Theory.
Local Open Scope ring_scope.

Section Coverage.
Variable F : rcfType.
Variables (X : finType) (u : X -> rat) (flip : X -> X).
Hypothesis uP : forall x, 0 <= u x < 1.
Hypothesis flipK : involutive flip.
Hypothesis flipP : forall x, (u (flip x) < 1 / 2%:R) = ~~ (u x < 1 / 2%:R).
Hypothesis X0 : (0 < #|X|)%N.
Variable gauss : seq X -> F * seq X.
Variables (tppf : F -> nat -> F) (zq : F -> F).
Local Notation S := (iso_sampler (tape_unif u) gauss 2 Rademacher).
Local Notation run := (ModelTrace.run F (seq X) 2).
Local Notation call := (crit_call tppf zq).

(* a run that returned a number E or more away from z *)
Definition missed (E z : F) (o : option (res run)) : bool :=
  if o is Some (Ok out) then
    if ret_value (run_ret out) is PFloat (Fin x) then E <= `|x - z| else false
  else false.
(* a run that returned a vector with some coordinate E or more away from 0 *)
Definition missed_vec (E : F) (o : option (res run)) : bool :=
  if o is Some (Ok out) then
    has (fun y => if y is Fin x then E <= `|x| else false) (pyval_x 2 (ret_value (run_ret out)))
  else false.

Variable c : F.
Definition hollow : 'M[F]_2 := \matrix_(i, j) (if i == j then 0 else c).
Local Notation O := (Oper hollow None).

Lemma hollow_sym : hollow^T = hollow.
Proof. by apply/matrixP => i j; rewrite !mxE eq_sym. Qed.
Lemma hollow_tr : \tr hollow = 0.
Proof. by rewrite /mxtrace big1 // => i _; rewrite mxE eqxx. Qed.

(* product of the two signs of probe j *)
Definition par (t : seq X) (j : nat) : F := sgn_at F u t (j * 2) * sgn_at F u t (j * 2 + 1).

Lemma sgn_at_pm t p : (p < size t)%N -> sgn_at F u t p = 1 \/ sgn_at F u t p = -1.
Proof.
move=> h; have [x0 _] : exists x : X, true by move: h; case: (t) => // x *; exists x.
by rewrite /sgn_at (nth_map x0) // /sgn; case: ifP; [right|left].
Qed.

Lemma par_pm t j : (j * 2 + 1 < size t)%N -> par t j = 1 \/ par t j = -1.
Proof.
move=> h; have h' : (j * 2 < size t)%N by apply: leq_trans h; rewrite addn1 ltnW.
by rewrite /par; case: (sgn_at_pm h) => ->; case: (sgn_at_pm h') => ->;
  [left|right|right|left]; ring.
Qed.

Lemma probes_tape k t : (k * 2 <= size t)%N ->
  flatten (batches S 1 k t) = [seq \col_(i < 2) sgn_at F u t (j * 2 + i) | j <- iota 0 k].
Proof.
move=> h; have [-> _] := iso_batches (tape_unif u) gauss 2 Rademacher 1 k t.
by rewrite muln1 tape_cols.
Qed.

Lemma forms_tape k t : (k * 2 <= size t)%N ->
  [seq qf O v | v <- flatten (batches S 1 k t)] = [seq 2%:R * c * par t j | j <- iota 0 k].
Proof.
move=> h; rewrite probes_tape // -map_comp; apply: eq_map => j /=.
rewrite /qf /= !mxE !big_ord_recl big_ord0 !mxE !big_ord_recl !big_ord0 !mxE /=.
by rewrite /par addn0 /bump /= addn0; ring.
Qed.

(* shares of tapes *)
Lemma share2 L : (4 <= L)%N ->
  fraction F L (fun t => par t 0 == par t 1) = 2%:R^-1.
Proof.
move=> h4; rewrite fractionE /average.
pose P j (h : (j < 4)%N) := Ordinal (leq_trans h h4).
have e (t : L.-tuple X) : (par t 0 == par t 1)%:R =
   2%:R^-1 + 2%:R^-1 * ((sg F u t (@P 0%N isT) * sg F u t (@P 1%N isT)) * (sg F u t (@P 2%N isT) * sg F u t (@P 3%N isT))) :> F.
  have -> : sg F u t (@P 0%N isT) * sg F u t (@P 1%N isT) = par t 0 by rewrite -!sgn_atE.
  have -> : sg F u t (@P 2%N isT) * sg F u t (@P 3%N isT) = par t 1 by rewrite -!sgn_atE.
  have h0 : (0 * 2 + 1 < size t)%N by rewrite size_tuple (leq_trans _ h4).
  have h1 : (1 * 2 + 1 < size t)%N by rewrite size_tuple (leq_trans _ h4).
  have n1 : (1 == -1 :> F) = false by rewrite -subr_eq0 opprK -(natrD _ 1 1) pnatr_eq0.
  by case: (par_pm h0) => ->; case: (par_pm h1) => ->; rewrite ?eqxx ?[-1 == _]eq_sym ?n1 ?mulr1n ?mulr0n; field.
rewrite (eq_bigr _ (fun t _ => e t)) big_split /= -big_distrr /= (moment4 _ flipK flipP) //.
rewrite sumr_const -val_eqE /= mul0r mulr0 addr0 -[_ *+ _]mulr_natr mulfK //.
exact: (card_tape F X0).
Qed.

Lemma share3 L : (6 <= L)%N ->
  fraction F L (fun t => (par t 0 == par t 1) && (par t 1 == par t 2)) = 4%:R^-1.
Proof.
move=> h6; rewrite fractionE /average.
pose P j (h : (j < 6)%N) := Ordinal (leq_trans h h6).
have e (t : L.-tuple X) : ((par t 0 == par t 1) && (par t 1 == par t 2))%:R =
   4%:R^-1 + 4%:R^-1 * (((sg F u t (@P 0%N isT) * sg F u t (@P 1%N isT)) * (sg F u t (@P 2%N isT) * sg F u t (@P 3%N isT))) +
     (((sg F u t (@P 0%N isT) * sg F u t (@P 1%N isT)) * (sg F u t (@P 4%N isT) * sg F u t (@P 5%N isT))) +
      ((sg F u t (@P 2%N isT) * sg F u t (@P 3%N isT)) * (sg F u t (@P 4%N isT) * sg F u t (@P 5%N isT))))) :> F.
  have -> : sg F u t (@P 0%N isT) * sg F u t (@P 1%N isT) = par t 0 by rewrite -!sgn_atE.
  have -> : sg F u t (@P 2%N isT) * sg F u t (@P 3%N isT) = par t 1 by rewrite -!sgn_atE.
  have -> : sg F u t (@P 4%N isT) * sg F u t (@P 5%N isT) = par t 2 by rewrite -!sgn_atE.
  have h0 : (0 * 2 + 1 < size t)%N by rewrite size_tuple (leq_trans _ h6).
  have h1 : (1 * 2 + 1 < size t)%N by rewrite size_tuple (leq_trans _ h6).
  have h2 : (2 * 2 + 1 < size t)%N by rewrite size_tuple (leq_trans _ h6).
  have n1 : (1 == -1 :> F) = false by rewrite -subr_eq0 opprK -(natrD _ 1 1) pnatr_eq0.
  by case: (par_pm h0) => ->; case: (par_pm h1) => ->; case: (par_pm h2) => ->;
    rewrite ?eqxx ?[-1 == _]eq_sym ?n1 ?eqxx ?mulr1n ?mulr0n; field.
rewrite (eq_bigr _ (fun t _ => e t)) big_split /= -big_distrr /= !big_split /= !(moment4 _ flipK flipP) //.
rewrite sumr_const -!val_eqE /= !mul0r !addr0 mulr0 addr0 -[_ *+ _]mulr_natr mulfK //.
exact: (card_tape F X0).
Qed.

Lemma fraction_le L (P Q : seq X -> bool) : (forall t : L.-tuple X, P t -> Q t) ->
  fraction F L P <= fraction F L Q.
Proof.
move=> h; rewrite /fraction ler_wpmul2r ?invr_ge0 ?ler0n // ler_nat.
by apply: subset_leq_card; apply/subsetP => t; rewrite !inE; exact: h.
Qed.

(* ---- hutch, default mode (one probe per iteration) ----------------------------- *)
Local Notation est r k t := (mest_view (est_after r O (batches S 1 k t))).
Local Notation ok := (@iso_sample_ok F _ (tape_unif u) gauss 2 Rademacher).

Lemma tape_hist r k t (h : (k * 2 <= size t)%N) :
  [/\ nonempty_hist (fed O (batches S 1 k t)),
      run_hist (@mest_update F) (mest_init F 1 true r) (fed O (batches S 1 k t)) = Some (est_after r O (batches S 1 k t)) &
      col_of (all_rows (fed O (batches S 1 k t))) 0 = [seq 2%:R * c * par t j | j <- iota 0 k]].
Proof.
split.
- rewrite /nonempty_hist /fed all_map; apply: sub_all (all_batches k t ok (ltn0Sn 0)) => vs /=.
  by rewrite /rows_of size_map size_map.
- exact: est_after_run (all_batches k t ok (ltn0Sn 0)).
- rewrite all_rows_fed /col_of -map_comp -forms_tape //; apply: eq_map => v /=; exact: quad_formE.
Qed.

Lemma avg_nseq (x : F) k : (0 < k)%N -> avg (nseq k x) = x.
Proof.
move=> k0; rewrite /avg size_nseq big_nseq iter_addr_0 -[_ *+ k]mulr_natr mulfK //.
by rewrite pnatr_eq0 -lt0n.
Qed.

Lemma std_err_nseq (x : F) k : (0 < k)%N -> std_err (nseq k x) = 0.
Proof.
move=> k0; rewrite /std_err /sample_var avg_nseq // big_nseq subrr expr0n /= iter_addr_0 mul0rn mul0r sqrtr0.
by rewrite mul0r.
Qed.

(* a run that stops after k equal samples *)
Lemma miss_run fuel batch r cr t k E : 0 < batch -> (0 < k < fuel)%N -> (k * 2 <= size t)%N ->
  (forall j, (j < k)%N -> par t j = par t 0) -> 0 <= c -> E <= 2%:R * c ->
  (forall j, (j < k)%N -> call cr (est r j t) = Ok false) -> call cr (est r k t) = Ok true ->
  missed E (\tr hollow) (hutch tppf zq fuel O batch S cr r false false t).
Proof.
move=> b0 /andP[k0 kf] hs eqs c0 hE hj hk.
rewrite (hutch_stop (full := false) (cb := false) ok (ltn0Sn 1) b0 kf hj hk) /missed /= est_estimate; last first.
  exact: all_batches k t ok (ltn0Sn 0).
have sz := size_flatten_batches 1 k t ok; rewrite muln1 in sz.
have -> : (if flatten (batches S 1 k t) is [::] then NaN else Fin (avg [seq qf O v | v <- flatten (batches S 1 k t)])) =
   Fin (2%:R * c * par t 0).
  case e: (flatten _) => [|v vs]; first by move: k0; rewrite -sz e.
  rewrite -e forms_tape //; congr Fin; rewrite -[RHS](avg_nseq _ k0); congr avg.
  apply: (@eq_from_nth _ 0) => [|i]; rewrite size_map size_iota ?size_nseq // => hi.
  by rewrite (nth_map 0%N) ?size_iota // nth_iota // add0n eqs // nth_nseq hi.
have h0 : (0 * 2 + 1 < size t)%N by apply: leq_trans hs; rewrite (@leq_mul 1 2 k 2).
rewrite hollow_tr subr0 normrM (sign_norm (par_pm h0)) mulr1 ger0_norm // mulr_ge0 ?ler0n //.
Qed.

Lemma conf_true conf atol rtol r t : 0 <= atol -> (6 <= size t)%N ->
  (forall j, (j < 3)%N -> par t j = par t 0) ->
  call (CConf conf (Fin atol) (Fin rtol)) (est r 3 t) = Ok true.
Proof.
move=> a0 h6 eqs; have [hh hr hc] := tape_hist r (k := 3) h6.
have cs : col_of (all_rows (fed O (batches S 1 3 t))) 0 = nseq 3 (2%:R * c * par t 0).
  by rewrite hc /= !eqs.
have ce := conf_error_dim1 tppf zq conf hh hr; cbv zeta in ce; rewrite cs std_err_nseq // mulr0 in ce.
by rewrite /crit_call /conf_call [ev_is_mean _]/= ce //= a0.
Qed.

Lemma conf_false conf atol rtol r t j : (j < 3)%N ->
  call (CConf conf (Fin atol) (Fin rtol)) (est r j t) = Ok false.
Proof.
move=> hj; apply: C16_never_before_three => //=.
by rewrite all_rows_fed size_map size_flatten_batches ?muln1 //; exact: ok.
Qed.
End Coverage.

Section Refutations.
Variable F : rcfType.
Variables (X : finType) (u : X -> rat) (flip : X -> X).
Hypothesis uP : forall x, 0 <= u x < 1.
Hypothesis flipK : involutive flip.
Hypothesis flipP : forall x, (u (flip x) < 1 / 2%:R) = ~~ (u x < 1 / 2%:R).
Hypothesis X0 : (0 < #|X|)%N.
Variable gauss : seq X -> F * seq X.
Variables (tppf : F -> nat -> F) (zq : F -> F).
Local Notation S := (iso_sampler (tape_unif u) gauss 2 Rademacher).

Lemma three (P : nat -> F) : (P 0%N == P 1%N) && (P 1%N == P 2%N) -> forall j, (j < 3)%N -> P j = P 0%N.
Proof. by move=> /andP[/eqP e1 /eqP e2] [|[|[|]]] // _; rewrite -?e2 -e1. Qed.

(* ConfidenceCriterion, any level and tolerances: a quarter of all tapes is off by E or more *)
Theorem C101_confidence_refuted fuel batch r (conf atol rtol E : F) L :
  (3 < fuel)%N -> 0 < batch -> 0 <= atol -> (6 <= L)%N -> 0 <= E ->
  exists M : 'M[F]_2, M^T = M /\
    4%:R^-1 <= fraction F L (fun t =>
      missed E (\tr M) (hutch tppf zq fuel (Oper M None) batch S (CConf conf (Fin atol) (Fin rtol)) r false false t)).
Proof.
move=> hf b0 a0 h6 E0; exists (hollow E); split; first exact: hollow_sym.
rewrite -(share3 F flipK flipP X0 h6); apply: fraction_le => t /three eqs.
have st : (6 <= size t)%N by rewrite size_tuple.
apply: (miss_run uP b0 (k := 3)) => //; first by rewrite mulr_natl mulr2n ler_addl.
  by move=> j; exact: conf_false.
exact: conf_true.
Qed.

(* the default criterion of hutch: CountCriterion(200) or 95% confidence with atol = 1 *)
Theorem C101_default_refuted fuel batch r (E : F) L :
  (3 < fuel)%N -> 0 < batch -> (6 <= L)%N -> 0 <= E ->
  exists M : 'M[F]_2, M^T = M /\
    4%:R^-1 <= fraction F L (fun t =>
      missed E (\tr M) (hutch tppf zq fuel (Oper M None) batch S (default_crit F) r false false t)).
Proof.
move=> hf b0 h6 E0; exists (hollow E); split; first exact: hollow_sym.
rewrite -(share3 F flipK flipP X0 h6); apply: fraction_le => t /three eqs.
have st : (6 <= size t)%N by rewrite size_tuple.
have ok := @iso_sample_ok F _ (tape_unif u) gauss 2 Rademacher.
have cnt j : crit_call tppf zq (CCount F 200) (mest_view (est_after r (Oper (hollow E) None) (batches S 1 j t))) = Ok (200 <= j)%N.
  by rewrite /= /count_call /= all_rows_fed size_map size_flatten_batches ?muln1.
have orE j : crit_call tppf zq (default_crit F) (mest_view (est_after r (Oper (hollow E) None) (batches S 1 j t))) =
   bind (crit_call tppf zq (CCount F 200) (mest_view (est_after r (Oper (hollow E) None) (batches S 1 j t)))) (fun x =>
   bind (crit_call tppf zq (CConf (19%:R / 20%:R) (Fin 1) (Fin 0)) (mest_view (est_after r (Oper (hollow E) None) (batches S 1 j t)))) (fun y =>
   Ok (x || y))) by [].
apply: (miss_run uP b0 (k := 3)) => //; first by rewrite mulr_natl mulr2n ler_addl.
  by move=> j hj; rewrite orE cnt conf_false //=; congr Ok; rewrite orbF; apply/negbTE; rewrite -ltnNge; exact: leq_trans hj _.
by rewrite orE cnt conf_true ?ler01.
Qed.

(* ToleranceCriterion with a positive atol: half of all tapes *)
Theorem C101_tolerance_refuted fuel batch r (rtol atol E : F) o Nn L :
  (2 < fuel)%N -> 0 < batch -> @spec_norm F o = Some Nn -> 0 < atol -> rtol <= 1 -> (4 <= L)%N -> 0 <= E ->
  exists M : 'M[F]_2, M^T = M /\
    2%:R^-1 <= fraction F L (fun t =>
      missed E (\tr M) (hutch tppf zq fuel (Oper M None) batch S (CTol (Fin rtol) (Fin atol) o) r false false t)).
Proof.
move=> hf b0 hN a0 r1 h4 E0; pose c := E + atol; exists (hollow c); split; first exact: hollow_sym.
have c0 : 0 <= c by rewrite addr_ge0 // ltW.
rewrite -(share2 F flipK flipP X0 h4); apply: fraction_le => t /eqP eq01.
have st : (4 <= size t)%N by rewrite size_tuple.
have ok := @iso_sample_ok F _ (tape_unif u) gauss 2 Rademacher.
have eqs j : (j < 2)%N -> par F u t j = par F u t 0 by case: j => [|[|]].
apply: (miss_run uP b0 (k := 2)) => //.
- apply: (@le_trans _ _ c); first by rewrite ler_addl ltW.
  by rewrite mulr_natl mulr2n ler_addl.
- have h0 : (0 * 2 + 1 < size t)%N by rewrite (leq_trans _ st).
  have no : o <> OrdStr by move=> e; rewrite e in hN.
  case=> [|[|]] // _.
    have -> : est_after r (Oper (hollow c) None) (batches S 1 0 t) = mest_init F 1 true r.
      by rewrite mest_init_of.
    have n0 : o <> Ord0 by move=> e; rewrite e in hN.
    have := @C15_empty_never_fires F tppf zq 1 true r (Fin rtol) (Fin atol) o isT n0.
    have : is_ok (crit_call tppf zq (CTol (Fin rtol) (Fin atol) o) (mest_view (mest_init F 1 true r))).
      by rewrite /= /tol_call /=; case: (o) no => //= _; case: ifP.
    by case: (crit_call _ _ _ _) => [[]|].
  have [hh hr hc] := tape_hist uP gauss c r (k := 1) (leq_trans (isT : 2 <= 4)%N st).
  rewrite [fed _ _](_ : _ = [:: head (Arr1 [::]) (fed (Oper (hollow c) None) (batches S 1 1 t))]) // in hr hc.
  rewrite /all_rows /= cats0 in hc.
  have hx : (0 < size (rows_of (head (Arr1 [::]) (fed (Oper (hollow c) None) (batches S 1 1 t)))))%N.
    by have := congr1 size hc; rewrite size_map /= => ->.
  rewrite (C15_first_batch tppf zq atol (ltn0Sn 0) hN hx r1 hr) (spec_normf1 _ hN) /cavg hc.
  rewrite /avg big_seq1 divr1 normrM (sign_norm (par_pm F u h0)) mulr1 ger0_norm ?mulr_ge0 ?ler0n //.
  congr Ok; apply/negbTE; rewrite -leNgt mulr_natl mulr2n; apply: (@le_trans _ _ c); first by rewrite ler_addr.
  by rewrite ler_addl.
have [hh hr hc] := tape_hist uP gauss c r (k := 2) st.
have [_ _ hc1] := tape_hist uP gauss c r (k := 1) (leq_trans (isT : 2 <= 4)%N st).
have er : fed (Oper (hollow c) None) (batches S 1 2 t) =
   rcons (fed (Oper (hollow c) None) (batches S 1 1 t)) (last (Arr1 [::]) (fed (Oper (hollow c) None) (batches S 1 2 t))).
  by rewrite batches_rcons /fed map_rcons last_rcons.
rewrite er in hh hr; rewrite (C15_tolerance_exact tppf zq rtol atol (ltn0Sn 0) hN hh hr) -er !(spec_normf1 _ hN).
have -> : (if fed (Oper (hollow c) None) (batches S 1 1 t) is [::] then 0
   else cavg (all_rows (fed (Oper (hollow c) None) (batches S 1 1 t))) 0) =
   cavg (all_rows (fed (Oper (hollow c) None) (batches S 1 1 t))) 0 by [].
rewrite /cavg hc hc1 /= (eqs 1%N isT) (avg_nseq _ (k := 2) isT) (avg_nseq _ (k := 1) isT).
by rewrite subrr normr0 a0.
Qed.

(* diag with its default class of criterion: half of all tapes return a vector with an entry
   E or more away from the diagonal, which is zero *)
Lemma dratio c t k (i : 'I_2) : (k * 2 <= size t)%N -> (0 < k)%N -> (forall j, (j < k)%N -> par F u t j = par F u t 0) ->
  forall l, (0 < l <= k)%N -> ratio (hollow c) (take l (dprobes S k t)) i = c * par F u t 0.
Proof.
move=> hs k0 eqs l /andP[l0 lk]; rewrite /dprobes (probes_tape uP) // -map_take take_iota (minn_idPl lk) /ratio !big_map.
have sq j : (j < k)%N -> (\col_(i < 2) sgn_at F u t (j * 2 + i)) i 0 ^+ 2 = 1.
  move=> hj; rewrite mxE; have h : (j * 2 + i < size t)%N.
    apply: leq_trans hs; apply: (@leq_trans (j * 2 + 2)); first by rewrite ltn_add2l.
    by rewrite addnC -mulSn leq_mul2r hj orbT.
  by case: (sgn_at_pm F u h) => ->; ring.
have nm j : (j < k)%N -> (hollow c *m \col_(i < 2) sgn_at F u t (j * 2 + i)) i 0 * (\col_(i < 2) sgn_at F u t (j * 2 + i)) i 0 = c * par F u t 0.
  move=> hj; rewrite -(eqs j hj) !mxE !big_ord_recl big_ord0 !mxE /par.
  case: i {sq} => -[|[|//]] hi /=; rewrite ?addn0 /bump /= ?addn0; ring.
rewrite (eq_big_seq (fun=> c * par F u t 0)) => [|j]; last first.
  by rewrite mem_iota add0n => hj; apply: nm; exact: leq_trans hj lk.
rewrite [X in _ / X](eq_big_seq (fun=> 1)) => [|j]; last first.
  by rewrite mem_iota add0n => hj; apply: sq; exact: leq_trans hj lk.
rewrite !big_const_seq !count_predT size_iota !iter_addr_0 -[_ *+ l]mulr_natr mulfK //.
by rewrite pnatr_eq0 -lt0n.
Qed.

Lemma drows c t k : (k * 2 <= size t)%N -> (forall j, (j < k)%N -> par F u t j = par F u t 0) ->
  rows_after (hollow c) (dprobes S k t) = nseq k (nseq 2 (c * par F u t 0)).
Proof.
case: k => [//|k] hs eqs; have ok := @iso_sample_ok F _ (tape_unif u) gauss 2 Rademacher.
apply: (@eq_from_nth _ [::]); rewrite size_rows_after size_dprobes ?size_nseq // => l hl.
rewrite nth_nseq hl /rows_after (nth_map 0%N) ?size_iota ?size_dprobes // nth_iota // add0n.
apply: (@eq_from_nth _ 0) => [|a]; rewrite size_map size_enum_ord ?size_nseq // => ha.
by rewrite (nth_map ord0) ?size_enum_ord // (dratio _ _ hs) // nth_nseq ha.
Qed.

Lemma dcav c t k i : (0 < k)%N -> (k * 2 <= size t)%N -> (forall j, (j < k)%N -> par F u t j = par F u t 0) -> (i < 2)%N ->
  cavg (all_rows (dfed (hollow c) (dprobes S k t))) i = c * par F u t 0.
Proof.
move=> k0 hs eqs hi; rewrite all_rows_dfed drows // /cavg /col_of map_nseq avg_nseq //.
by rewrite nth_nseq hi.
Qed.

Theorem C101_diag_refuted fuel r (rtol atol E : F) o Nn L :
  (2 < fuel)%N -> @spec_norm F o = Some Nn -> 0 < atol -> rtol <= 1 -> (4 <= L)%N -> 0 <= E ->
  exists M : 'M[F]_2, [/\ M^T = M, forall i, M i i = 0 &
    2%:R^-1 <= fraction F L (fun t =>
      missed_vec E (diag tppf zq fuel M S (CTol (Fin rtol) (Fin atol) o) false false r t))].
Proof.
move=> hf hN a0 r1 h4 E0; pose c := E + atol; exists (hollow c); split.
- exact: hollow_sym.
- by move=> i; rewrite mxE eqxx.
have c0 : 0 <= c by rewrite addr_ge0 // ltW.
rewrite -(share2 F flipK flipP X0 h4); apply: fraction_le => t /eqP eq01.
have st : (4 <= size t)%N by rewrite size_tuple.
have ok := @iso_sample_ok F _ (tape_unif u) gauss 2 Rademacher.
have eqs2 j : (j < 2)%N -> par F u t j = par F u t 0 by case: j => [|[|]].
have eqs1 j : (j < 1)%N -> par F u t j = par F u t 0 by case: j.
have st1 : (1 * 2 <= size t)%N by exact: leq_trans st.
have h0 : (0 * 2 + 1 < size t)%N by exact: leq_trans st.
have no : o <> OrdStr by move=> e; rewrite e in hN.
have n0 : o <> Ord0 by move=> e; rewrite e in hN.
have t0 : dtest tppf zq r (hollow c) S (t : seq X) (CTol (Fin rtol) (Fin atol) o) 0 = Ok false.
  have := @dtol_ok F _ tppf zq 2 (hollow c) S r (t : seq X) isT (Fin rtol) (Fin atol) o 0 no.
  have := @C15_empty_never_fires F tppf zq 2 false r (Fin rtol) (Fin atol) o isT n0.
  rewrite /dtest (_ : dest r (hollow c) (dprobes S 0 t) = mest_init F 2 false r); last by rewrite mest_init_of.
  by case: (crit_call _ _ _ _) => [[]|].
have t1 : dtest tppf zq r (hollow c) S (t : seq X) (CTol (Fin rtol) (Fin atol) o) 1 = Ok false.
  rewrite /dtest; have hr := dest_run r (hollow c) (dprobes S 1 t).
  have ed : dfed (hollow c) (dprobes S 1 t) = [:: Arr2 2 [:: nseq 2 (c * par F u t 0)]].
    by rewrite /dfed drows.
  rewrite ed in hr; rewrite (C15_first_batch tppf zq atol (ltn0Sn 1) hN _ r1 hr) //.
  congr Ok; apply/negbTE; rewrite -leNgt; apply: le_trans (spec_norm_coord _ hN (isT : 0 < 2)%N).
  rewrite /cavg /col_of /= (avg_nseq _ (k := 1) isT) normrM (sign_norm (par_pm F u h0)) mulr1 ger0_norm //.
  by rewrite ler_addr.
have t2 : dtest tppf zq r (hollow c) S (t : seq X) (CTol (Fin rtol) (Fin atol) o) 2 = Ok true.
  rewrite /dtest; have es := dprobes_S (t : seq X) ok 1; set v := head 0 _ in es.
  have := dfed_rcons (hollow c) (dprobes S 1 t) v; rewrite -es; set x := Arr2 _ _ => er.
  have hh := dfed_ok (hollow c) (dprobes S 2 t); have hr := dest_run r (hollow c) (dprobes S 2 t); rewrite er in hh hr.
  rewrite (C15_tolerance_exact tppf zq rtol atol (ltn0Sn 1) hN hh hr) -er.
  set ch := mkseq _ 2; suff -> : Nn ch < atol by [].
  apply: (@le_lt_trans _ _ (0 * Nn (mkseq (fun=> 0) 2))); last by rewrite mul0r.
  apply: (spec_norm_le hN) => // i hi; rewrite mul0r.
  have -> : (if dfed (hollow c) (dprobes S 1 t) is [::] then 0 else cavg (all_rows (dfed (hollow c) (dprobes S 1 t))) i) =
     cavg (all_rows (dfed (hollow c) (dprobes S 1 t))) i by rewrite /dfed drows.
  by rewrite !dcav // subrr normr0.
have tj j : (j < 2)%N -> dtest tppf zq r (hollow c) S (t : seq X) (CTol (Fin rtol) (Fin atol) o) j = Ok false.
  by case: j => [|[|]].
have run := diag_stop false false ok (isT : 0 < 2)%N hf tj t2.
rewrite /missed_vec run; have [-> _] := C40_diag_value ok (isT : 0 < 2)%N run.
have -> : run_probes (drun false false r (hollow c) S 2 t) = dprobes S 2 t by [].
have sz := size_dprobes 2 (t : seq X) ok.
case e: (dprobes S 2 t) (sz) => [//|v vs] _; rewrite -e.
rewrite has_map; apply/hasP; exists ord0; rewrite ?mem_enum //= .
have -> : avg [seq (\sum_(v0 <- take k.+1 (dprobes S 2 t)) (hollow c *m v0) ord0 0 * v0 ord0 0) /
     (\sum_(v0 <- take k.+1 (dprobes S 2 t)) v0 ord0 0 ^+ 2) | k <- iota 0 (size (dprobes S 2 t))] = c * par F u t 0.
  rewrite -[RHS](@dcav c t 2 0) // all_rows_dfed /cavg /col_of /rows_after -map_comp; congr avg.
  have ee : nth ord0 (enum 'I_2) 0 = ord0 by apply: val_inj; rewrite /= nth_enum_ord.
  by apply: eq_map => j; rewrite /comp (nth_map ord0) ?size_enum_ord // ee.
by rewrite normrM (sign_norm (par_pm F u h0)) mulr1 ger0_norm // ler_addl ltW.
Qed.
End Refutations.

(* tapes of six draws from {0, 1/2} *)
Example C101_default_ex (F : rcfType) gauss (tppf : F -> nat -> F) (zq : F -> F) :
  exists M : 'M[F]_2, M^T = M /\
    4%:R^-1 <= fraction F 6 (fun t : seq 'I_2 =>
      missed 1000%:R (\tr M) (hutch tppf zq 201 (Oper M None) 32
        (iso_sampler (tape_unif (@grid_u 1)) gauss 2 Rademacher) (default_crit F) false false false t)).
Proof.
apply: (C101_default_refuted (@grid_uP 1 erefl) (@grid_flipK 1) (@grid_flipP 1 erefl) (@grid_card 1 erefl)) => //.
exact: ler0n.
Qed.

Example C101_confidence_ex (F : rcfType) gauss (tppf : F -> nat -> F) (zq : F -> F) :
  exists M : 'M[F]_2, M^T = M /\
    4%:R^-1 <= fraction F 6 (fun t : seq 'I_2 =>
      missed 1000%:R (\tr M) (hutch tppf zq 4 (Oper M None) 32
        (iso_sampler (tape_unif (@grid_u 1)) gauss 2 Rademacher) (CConf (99%:R / 100%:R) (Fin (1 / 100%:R)) (Fin 0)) false false false t)).
Proof.
apply: (C101_confidence_refuted (@grid_uP 1 erefl) (@grid_flipK 1) (@grid_flipP 1 erefl) (@grid_card 1 erefl)) => //.
  by rewrite divr_ge0 ?ler01 ?ler0n.
exact: ler0n.
Qed.

Example C101_tolerance_ex (F : rcfType) gauss (tppf : F -> nat -> F) (zq : F -> F) :
  exists M : 'M[F]_2, M^T = M /\
    2%:R^-1 <= fraction F 4 (fun t : seq 'I_2 =>
      missed 1000%:R (\tr M) (hutch tppf zq 3 (Oper M None) 32
        (iso_sampler (tape_unif (@grid_u 1)) gauss 2 Rademacher) (CTol (Fin (1 / 100%:R)) (Fin (1 / 1000%:R)) Ord2) false false false t)).
Proof.
apply: (C101_tolerance_refuted (@grid_uP 1 erefl) (@grid_flipK 1) (@grid_flipP 1 erefl) (@grid_card 1 erefl)) => //.
- by rewrite divr_gt0 ?ltr01 ?ltr0n.
- by rewrite ler_pdivr_mulr ?ltr0n // mul1r ler1n.
- exact: ler0n.
Qed.

Example C101_diag_ex (F : rcfType) gauss (tppf : F -> nat -> F) (zq : F -> F) :
  exists M : 'M[F]_2, [/\ M^T = M, forall i, M i i = 0 &
    2%:R^-1 <= fraction F 4 (fun t : seq 'I_2 =>
      missed_vec 1000%:R (diag tppf zq 3 M
        (iso_sampler (tape_unif (@grid_u 1)) gauss 2 Rademacher) (CTol (Fin (1 / 100%:R)) (Fin (1 / 1000%:R)) Ord2) false false false t))].
Proof.
apply: (C101_diag_refuted (@grid_uP 1 erefl) (@grid_flipK 1) (@grid_flipP 1 erefl) (@grid_card 1 erefl)) => //.
- by rewrite divr_gt0 ?ltr01 ?ltr0n.
- by rewrite ler_pdivr_mulr ?ltr0n // mul1r ler1n.
- exact: ler0n.
Qed.

Print Assumptions C101_confidence_refuted.
Print Assumptions C101_default_refuted.
Print Assumptions C101_tolerance_refuted.
Print Assumptions C101_diag_refuted.
