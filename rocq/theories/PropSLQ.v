(* C93: hutch given a MatrixFunction (stochastic Lanczos quadrature). *)
From Coq Require Import String.
From mathcomp Require Import all_ssreflect all_algebra zify ring.
From Verif Require Import Base Spec ModelStats LemStats PropStats ModelEstimators LemEstimators LemEst2
  PropEstimators ModelTyping ModelRandom ModelTrace LemTrace PropTrace PropUnbiased.
From Verif Require Import ModelXtrace LemXtrace ModelLanczos LemLanczos SpecLanczos LemLanczos2 LemLanczos3 LemLanczos4
  ModelTqli ModelQuadrature ModelSpecial ModelOperators SpecTridiag SpecQuad SpecOperators LemSpectral LemQuad PropQuad
  PropOperators LemOperators LemOperators2 PropMatFun PropMatFun2 PropAccuracy ModelSLQ.
Set Implicit Arguments.
Unset Strict Implicit.
Unset Printing Implicit Defensive.
Import Order.TTheory GRing.Theory Num.Theory.
Local Open Scope ring_scope.

Section P.
Variable F : rcfType.
Variable G : Type.
Variables (tppf : F -> nat -> F) (zq : F -> F).
Variables (eps : F) (fexp flog : F -> F) (feps : F).
Hypothesis eps0 : 0 <= eps.
Variable lv : seq F -> seq F -> res (seq F).
Variable lp : seq F -> seq F -> res (seq F * seq (seq F)).
Hypothesis lapack : lapack_ok lv lp.
Variable N : nat.
Variable A : 'M[F]_N.
Hypothesis n0 : (0 < N)%N.
Hypothesis sA : A^T = A.
Variables (kd : okind) (dA : dty).
Implicit Types (sample : sampler F G N) (g : G) (c : crit F) (r full cb : bool).

Local Notation mf_quad := (mf_quad eps lv lp A kd dA).
Local Notation tol := (Num.sqrt N%:R * (1 / 10%:R ^+ 8)).
Local Notation q0 v := ((vnorm v)^-1 *: v).
Local Notation built := (built fexp flog feps N kd).
Local Notation after_calls := (after_calls eps lv lp A kd dA).
Local Notation hutch := (@hutch F G tppf zq N).
Local Notation slq := (@slq F G tppf zq eps lv lp N A kd dA).

Lemma size_colseq (v : 'cV[F]_N) : size (colseq v) = N.
Proof. by rewrite size_map size_enum_ord. Qed.
Lemma vec_colseq (v : 'cV[F]_N) : vec N (colseq v) = v.
Proof.
apply/colP => i; rewrite !mxE (nth_map i) ?size_enum_ord //.
by congr (v _ 0); apply: val_inj; rewrite /= nth_enum_ord.
Qed.

(* slq gives the same outcome as hutch *)
Definition matches (M0 : mfobj F) (o : option (outcome (run F G N * mfobj F))) (h : option (res (run F G N))) : Prop :=
  match h with
  | None => o = None
  | Some (Err e) => o = Some (Raise e)
  | Some (Ok out) => exists M', o = Some (Ret (out, M')) /\ after_calls M0 M'
  end.

Section Sim.
Variables (M0 : mfobj F) (adm : 'cV[F]_N -> Prop) (q : 'cV[F]_N -> F).
Hypothesis hq : forall M v, after_calls M0 M -> adm v -> (mf_quad M [:: colseq v]).1 = Ret [:: Fin (q v)].

Lemma quad_cols M vs : after_calls M0 M -> (forall v, v \in vs -> adm v) -> exists M',
  mf_quad M [seq colseq v | v <- vs] = (Ret [seq Fin (q v) | v <- vs], M') /\ after_calls M0 M'.
Proof.
elim: vs M => [|v vs IH] M C hv; first by exists M.
have := hq C (hv v (mem_head _ _)) => /=; case E1: (mf_quad1 eps lv lp A kd dA M _) => [[||e|y] M1] //= -[Ey]; subst y.
case: C => h C; have C1 : mf_run eps lv lp A kd dA M0 (h ++ [:: CQuad [:: colseq v]]) = Some M1.
  by rewrite run_cat C /= E1.
have [|w hw|M' [E' C']] := IH M1; first by exists (h ++ [:: CQuad [:: colseq v]]).
  by apply: hv; rewrite in_cons hw orbT.
by rewrite E'; exists M'.
Qed.

Lemma finites_fin vs : finites [seq Fin (q v) | v <- vs] = Some [seq q v | v <- vs].
Proof. by elim: vs => //= v vs ->. Qed.

Variable sample : sampler F G N.
Hypothesis hs : forall k g v, v \in (sample k g).1 -> adm v.

Lemma loop_sim fuel c b nt st M : after_calls M0 M ->
  match while_not fuel (loop_test tppf zq c) (hutch_body (Oper A (Some q)) sample b nt) st with
  | None => slq_loop tppf zq fuel c (slq_body eps lv lp A kd dA sample b nt) (SState st M) = None
  | Some (Err e) => slq_loop tppf zq fuel c (slq_body eps lv lp A kd dA sample b nt) (SState st M) = Some (Raise e)
  | Some (Ok st') => exists M', slq_loop tppf zq fuel c (slq_body eps lv lp A kd dA sample b nt) (SState st M) = Some (Ret (SState st' M')) /\
      after_calls M0 M'
  end.
Proof.
elim: fuel st M => [//|fuel IH] st M C /=; case: (loop_test _ _ _ _) => [[]|e] //; first by exists M.
rewrite [hutch_body _ _ _ _ st]/hutch_body [slq_body _ _ _ _ _ _ _ _ _ (SState st M)]/slq_body /=.
case: ifP => // _; case Es: (sample _ _) => [vs g']; have hv v : v \in vs -> adm v.
  by move=> vv; apply: (hs (k := `|b|%N) (g := lo_gen st)); rewrite Es.
have [M' [-> C']] := quad_cols C hv; rewrite finites_fin /quad_form /=.
by case: (mest_update _ _) => est' [e|] //=; exact: IH.
Qed.

Lemma slq_sim fuel batch c r full cb g :
  matches M0 (slq fuel M0 batch sample c r full cb g) (hutch fuel (Oper A (Some q)) batch sample c r full cb g).
Proof.
have C0 : after_calls M0 M0 by exists [::].
have nz : (N == 0%N) = false by case: (N) n0.
rewrite /ModelSLQ.slq /ModelTrace.hutch nz.
by case: ifP => _; set st := LState _ _ _ _; [have := loop_sim fuel c batch cb st C0|have := loop_sim fuel c 1 false st C0];
  case: (while_not _ _ _ _) => [[st'|e]|] /=; [case=> M' [-> C']; exists M'|move=> ->|move=> ->|case=> M' [-> C']; exists M'|move=> ->|move=> ->].
Qed.
End Sim.

(* hutch asks an operator only for its quadratic form *)
Lemma hutch_ext fuel (O1 O2 : oper F N) batch sample c r full cb g :
  (forall v, quad_form O1 v = quad_form O2 v) ->
  hutch fuel O1 batch sample c r full cb g = hutch fuel O2 batch sample c r full cb g.
Proof.
move=> h; have L b nt st : while_not fuel (loop_test tppf zq c) (hutch_body O1 sample b nt) st =
    while_not fuel (loop_test tppf zq c) (hutch_body O2 sample b nt) st.
  have B st1 : hutch_body O1 sample b nt st1 = hutch_body O2 sample b nt st1.
    rewrite /hutch_body; case: ifP => // _; case: (sample _ _) => vs g'.
    by rewrite (eq_map h).
  elim: fuel st => //= f IH st; rewrite B; case: (loop_test _ _ _ _) => [[]|] //.
  by case: (hutch_body _ _ _ _ st).
by rewrite /ModelTrace.hutch !L.
Qed.

(* a probe for which deg Lanczos steps give v^T B v exactly (see C55) *)
Definition exact_probe (M0 : mfobj F) (h : F -> F) (B : 'M[F]_N) (v : 'cV[F]_N) : Prop :=
  exists s, stop_at A (q0 v) tol (mf_deg M0) s /\
    ((s = mf_deg M0 /\ exists p : {poly F}, [/\ h =1 (fun t => p.[t]), (size p <= (mf_deg M0).*2)%N & B = polymx p A]) \/
     (s = N \/ lb A (q0 v) s = 0) /\ is_mxfun h A B).

(* hutch on the MatrixFunction runs exactly like hutch on the matrix B = f(A): same
   probes, samples, stopping time, callbacks and result *)
Theorem C93_slq_is_hutch fuel M0 batch sample c r full cb g (h : F -> F) (B : 'M[F]_N) :
  built M0 -> mf_orth M0 <= 2 -> applies (mf_fun M0) h ->
  (forall k g v, v \in (sample k g).1 -> exact_probe M0 h B v) ->
  matches M0 (slq fuel M0 batch sample c r full cb g) (hutch fuel (Oper B None) batch sample c r full cb g).
Proof.
move=> H O hf hs; pose q v := qform B v.
have -> : hutch fuel (Oper B None) batch sample c r full cb g = hutch fuel (Oper A (Some q)) batch sample c r full cb g.
  by apply: hutch_ext => v; rewrite [RHS]/quad_form /= quad_formE.
apply: (slq_sim _ hs) => M v C [s [st hv]].
rewrite -[X in Fin (q X)]vec_colseq.
apply: (C55_columns eps0 lapack n0 sA H C O hf) => x; rewrite inE => /eqP ->.
by split; [exact: size_colseq|exists s; rewrite vec_colseq].
Qed.

(* ---- Rademacher probes, CountCriterion ------------------------------------------------ *)
Definition signs (v : 'cV[F]_N) : Prop := forall i, v i 0 = 1 \/ v i 0 = -1.

(* the number returned *)
Definition slq_value (o : option (outcome (run F G N * mfobj F))) (z : F) : Prop :=
  exists out M', o = Some (Ret (out, M')) /\ ret_value (run_ret out) = PFloat (Fin z).

Lemma matches_value M0 o h z : matches M0 o h -> value_is h z -> slq_value o z.
Proof. by move=> m [out [E ev]]; move: m; rewrite E => -[M' [-> _]]; exists out, M'. Qed.

Lemma vnorm_signs v : signs v -> vnorm v ^+ 2 = N%:R.
Proof.
move=> h; rewrite vnorm_sq dtE -[in RHS](card_ord N) -sumr_const; apply: eq_bigr => i _.
by case: (h i) => ->; ring.
Qed.

Lemma signs_neq0 v : signs v -> v != 0.
Proof.
by move=> h; apply/eqP => v0; have := vnorm_signs h; rewrite v0 vnorm_sq dt0r => /eqP; rewrite eq_sym pnatr_eq0 eqn0Ngt n0.
Qed.

Variables (unif : G -> rat * G) (gauss : G -> F * G).
Hypothesis unifP : forall g, 0 <= (unif g).1 < 1.
Local Notation S := (iso_sampler unif gauss N Rademacher).

(* the probes drawn by a run that stops at count n *)
Definition probes (batch n : int) full cb g : seq 'cV[F]_N :=
  (S (nbatch n (eff full cb batch) * eff full cb batch)%N g).1.

Lemma probes_signs batch n full cb g v : v \in probes batch n full cb g -> signs v.
Proof. by move=> h; exact: (rademacher_probe unifP h). Qed.

Lemma size_probes batch n full cb g : size (probes batch n full cb g) = (nbatch n (eff full cb batch) * eff full cb batch)%N.
Proof. exact: iso_sample_ok. Qed.

Lemma hutch_probes fuel (O : oper F N) batch n r full cb g :
  0 < batch -> 0 < n -> (nbatch n (eff full cb batch) < fuel)%N ->
  value_is (hutch fuel O batch S (CCount F n) r full cb g) (avg [seq qf O v | v <- probes batch n full cb g]).
Proof.
move=> b0 m0 hf; have [out [e [hp _ hv]]] := @count_value F _ tppf zq N fuel O batch S n r full cb g
   (@iso_sample_ok _ _ _ _ _ _) n0 b0 hf m0.
exists out; split=> //; rewrite hv hp.
by have [-> _] := iso_batches unif gauss N Rademacher (eff full cb batch) (nbatch n (eff full cb batch)) g.
Qed.

Lemma slq_probes M0 q fuel batch n r full cb g :
  (forall M v, after_calls M0 M -> signs v -> (mf_quad M [:: colseq v]).1 = Ret [:: Fin (q v)]) ->
  0 < batch -> 0 < n -> (nbatch n (eff full cb batch) < fuel)%N ->
  slq_value (slq fuel M0 batch S (CCount F n) r full cb g) (avg [seq q v | v <- probes batch n full cb g]).
Proof.
move=> hq b0 m0 hf; have hs k g' v : v \in (S k g').1 -> signs v by move=> h; exact: (rademacher_probe unifP h).
have m := slq_sim hq hs fuel batch (CCount F n) r full cb g.
exact: (matches_value m (hutch_probes (Oper A (Some q)) r g b0 m0 hf)).
Qed.

Lemma avg_le (f h : 'cV[F]_N -> F) vs (e : F) : (0 < size vs)%N -> (forall v, v \in vs -> f v <= h v + e) ->
  avg [seq f v | v <- vs] <= avg [seq h v | v <- vs] + e.
Proof.
move=> s0 H; rewrite /avg !size_map !big_map ler_pdivr_mulr ?ltr0n // mulrDl mulfVK ?pnatr_eq0 -?lt0n //.
have -> : e * (size vs)%:R = \sum_(v <- vs) e by rewrite big_const_seq count_predT iter_addr_0 mulr_natr.
by rewrite -big_split /= big_seq [X in _ <= X]big_seq; apply: ler_sum => v /H.
Qed.

Lemma avg_dist (f h : 'cV[F]_N -> F) vs (e : F) : (0 < size vs)%N -> (forall v, v \in vs -> `|f v - h v| <= e) ->
  `|avg [seq f v | v <- vs] - avg [seq h v | v <- vs]| <= e.
Proof.
move=> s0 H; rewrite ler_norml ler_subl_addl; apply/andP; split.
  rewrite ler_subr_addr addrC ler_subl_addr; apply: avg_le => // v /H.
  by rewrite ler_distl => /andP[]; rewrite ler_subl_addr.
by apply: avg_le => // v /H; rewrite ler_distl => /andP[].
Qed.

(* the value quad returns on a new object *)
Definition q_of M0 (v : 'cV[F]_N) : F := if (mf_quad M0 [:: colseq v]).1 is Ret [:: Fin z] then z else 0.

(* f within e of a polynomial with at most 2 deg coefficients: whatever the probes, the value is within 2 e N of
   the one hutch returns for the explicit f(A) *)
Theorem C93_run_error fuel M0 batch n r full cb g D (f : F -> F) (B : 'M[F]_N) (p : {poly F}) (e : F) :
  built M0 -> mf_orth M0 <= 2 -> (forall v, signs v -> stop_at A (q0 v) tol (mf_deg M0) (mf_deg M0)) ->
  range_in A D -> applies_on D (mf_fun M0) f -> is_mxfun f A B ->
  (size p <= (mf_deg M0).*2)%N -> (forall t, D t -> `|f t - p.[t]| <= e) ->
  0 < batch -> 0 < n -> (nbatch n (eff full cb batch) < fuel)%N ->
  exists z y, [/\ slq_value (slq fuel M0 batch S (CCount F n) r full cb g) z,
    value_is (hutch fuel (Oper B None) batch S (CCount F n) r full cb g) y & `|z - y| <= 2%:R * e * N%:R].
Proof.
move=> H O hs hD hf hB sp hp b0 m0 hl.
have K M v : after_calls M0 M -> signs v -> exists2 z, (mf_quad M [:: colseq v]).1 = Ret [:: Fin z] &
    `|z - qform B v| <= 2%:R * e * N%:R.
  move=> C sv; have := C91_quad_error eps0 lapack n0 sA H C (or_intror O) (size_colseq v).
  rewrite vec_colseq vnorm_signs // => K; have [z [E1 E2]] := K _ _ _ _ _ (signs_neq0 sv) (hs v sv) hD hf hB sp hp.
  by exists z.
have hq M v : after_calls M0 M -> signs v -> (mf_quad M [:: colseq v]).1 = Ret [:: Fin (q_of M0 v)].
  move=> C sv; have C0 : after_calls M0 M0 by exists [::].
  have -> : (mf_quad M [:: colseq v]).1 = (mf_quad M0 [:: colseq v]).1.
    apply: (C59_quad eps0 lapack n0 sA H C O) => x; rewrite inE => /eqP ->; rewrite size_colseq vec_colseq.
    by split=> //; exact: hs.
  by rewrite /q_of; have [z -> _] := K M0 v C0 sv.
exists (avg [seq q_of M0 v | v <- probes batch n full cb g]), (avg [seq qf (Oper B None) v | v <- probes batch n full cb g]).
split; [exact: slq_probes|exact: hutch_probes|apply: avg_dist => [|v vp]].
  by rewrite size_probes m_gt0 // eff_gt0.
have sv := probes_signs vp; have C0 : after_calls M0 M0 by exists [::].
by have [z E1 E2] := K M0 v C0 sv; rewrite /q_of E1.
Qed.

(* f = 1/t, A positive definite: the value is positive and at most the one of hutch for the explicit inverse *)
Theorem C93_run_inverse fuel M0 batch n r full cb g :
  built M0 -> mf_orth M0 <= 2 -> (forall v, signs v -> stop_at A (q0 v) tol (mf_deg M0) (mf_deg M0)) ->
  applies_on (fun t => 0 < t) (mf_fun M0) (fun t => t^-1) -> posdef A ->
  0 < batch -> 0 < n -> (nbatch n (eff full cb batch) < fuel)%N ->
  exists z y, [/\ slq_value (slq fuel M0 batch S (CCount F n) r full cb g) z,
    value_is (hutch fuel (Oper (invmx A) None) batch S (CCount F n) r full cb g) y & 0 <= z <= y].
Proof.
move=> H O hs hf pA b0 m0 hl.
have K M v : after_calls M0 M -> signs v -> exists2 z, (mf_quad M [:: colseq v]).1 = Ret [:: Fin z] &
    0 < z <= qform (invmx A) v.
  move=> C sv; have := C92_inverse_lower eps0 lapack n0 sA H C (or_intror O) (size_colseq v).
  by rewrite vec_colseq => /(_ (signs_neq0 sv) hf (hs v sv) pA) [z [E1 E2]]; exists z.
have hq M v : after_calls M0 M -> signs v -> (mf_quad M [:: colseq v]).1 = Ret [:: Fin (q_of M0 v)].
  move=> C sv; have C0 : after_calls M0 M0 by exists [::].
  have -> : (mf_quad M [:: colseq v]).1 = (mf_quad M0 [:: colseq v]).1.
    apply: (C59_quad eps0 lapack n0 sA H C O) => x; rewrite inE => /eqP ->; rewrite size_colseq vec_colseq.
    by split=> //; exact: hs.
  by rewrite /q_of; have [z -> _] := K M0 v C0 sv.
exists (avg [seq q_of M0 v | v <- probes batch n full cb g]), (avg [seq qf (Oper (invmx A) None) v | v <- probes batch n full cb g]).
have C0 : after_calls M0 M0 by exists [::].
have s0 : (0 < size (probes batch n full cb g))%N by rewrite size_probes m_gt0 // eff_gt0.
split; [exact: slq_probes|exact: hutch_probes|apply/andP; split].
  rewrite divr_ge0 ?ler0n // big_map big_seq sumr_ge0 // => v /probes_signs /(K M0 v C0) [z E1 /andP[E2 _]].
  by rewrite /q_of E1 ltW.
rewrite -[X in _ <= X]addr0; apply: avg_le => // v /probes_signs /(K M0 v C0) [z E1 /andP[_ E2]].
by rewrite /q_of E1 addr0.
Qed.
End P.

(* ---- averages over all equally likely tapes (see C25) ---------------------------------- *)
Section Tapes.
Variable F : rcfType.
Variables (X : finType) (u : X -> rat) (flip : X -> X).
Hypothesis uP : forall x, 0 <= u x < 1.
Hypothesis flipK : involutive flip.
Hypothesis flipP : forall x, (u (flip x) < 1 / 2%:R) = ~~ (u x < 1 / 2%:R).
Hypothesis X0 : (0 < #|X|)%N.
Variables (tppf : F -> nat -> F) (zq : F -> F).
Variables (eps : F) (fexp flog : F -> F) (feps : F).
Hypothesis eps0 : 0 <= eps.
Variable lv : seq F -> seq F -> res (seq F).
Variable lp : seq F -> seq F -> res (seq F * seq (seq F)).
Hypothesis lapack : lapack_ok lv lp.
Variable N : nat.
Variable A : 'M[F]_N.
Hypothesis n0 : (0 < N)%N.
Hypothesis sA : A^T = A.
Variables (kd : okind) (dA : dty) (gauss : seq X -> F * seq X).

Local Notation tol := (Num.sqrt N%:R * (1 / 10%:R ^+ 8)).
Local Notation q0 v := ((vnorm v)^-1 *: v).
Local Notation built := (built fexp flog feps N kd).
Local Notation S := (iso_sampler (tape_unif u) gauss N Rademacher).
Local Notation hutch := (@hutch F (seq X) tppf zq N).
Local Notation slq := (@slq F (seq X) tppf zq eps lv lp N A kd dA).
Local Notation draws full cb batch n := (nbatch n (eff full cb batch) * eff full cb batch)%N.

Lemma tapeP t : 0 <= (tape_unif u t).1 < 1.
Proof. by case: t => [//|x t]; exact: uP. Qed.

Lemma value_inj (o : option (res (run F (seq X) N))) x y : value_is o x -> value_is o y -> x = y.
Proof. by move=> [a [-> e]] [b [[<-]]]; rewrite e => -[]. Qed.

Lemma average_le L (f g : seq X -> F) : (forall t : L.-tuple X, f t <= g t) -> average L f <= average L g.
Proof.
move=> h; rewrite /average ler_wpmul2r ?invr_ge0 ?ler0n //; exact: ler_sum.
Qed.
Lemma average_add L (f : seq X -> F) c : average L (fun t => f t + c) = average L f + c.
Proof.
rewrite /average big_split /= mulrDl sumr_const -[c *+ _]mulr_natr mulfK //; exact: card_tape.
Qed.

(* a number for every tape *)
Lemma choose L (P : seq X -> F -> Prop) : (forall t : L.-tuple X, exists z, P t z) ->
  exists val : seq X -> F, forall t : L.-tuple X, P t (val t).
Proof.
move=> h; have [w hw] := fin_all_exists h.
by exists (fun t => if insub t is Some t' then w t' else 0) => t; rewrite valK.
Qed.

Lemma exact_sym M0 f (B : 'M[F]_N) v : exact_probe A M0 f B v -> B^T = B.
Proof.
move=> [s [_ [[_ [p [_ _ ->]]]|[_ [V [l [_ _ ->]]]]]]]; last by rewrite !trmx_mul trmxK tr_diag_mx mulmxA.
rewrite /polymx; apply/matrixP => i j; rewrite mxE !summxE; apply: eq_bigr => k _.
by rewrite !mxE -[in RHS](mxpow_tr _ sA) mxE.
Qed.

(* exact quadrature: unbiased, with hutch's variance *)
Theorem C93_unbiased fuel M0 batch n r full cb L (f : F -> F) (B : 'M[F]_N) :
  built M0 -> mf_orth M0 <= 2 -> applies (mf_fun M0) f -> (forall v, signs v -> exact_probe A M0 f B v) ->
  0 < batch -> 0 < n -> (nbatch n (eff full cb batch) < fuel)%N -> (draws full cb batch n * N <= L)%N ->
  exists val : seq X -> F,
   [/\ (forall t : L.-tuple X, slq_value (slq fuel M0 batch S (CCount F n) r full cb (t : seq X)) (val t)),
       average L val = \tr B &
       average L (fun t => (val t - \tr B) ^+ 2) =
         2%:R * (\sum_i \sum_j B i j ^+ 2 - \sum_i B i i ^+ 2) / (draws full cb batch n)%:R].
Proof.
move=> H O hf hx b0 m0 hl hL.
have sB : B^T = B by apply: (exact_sym (hx (\col_i 1) _)) => i; rewrite mxE; left.
have hs k t v : v \in (S k t).1 -> exact_probe A M0 f B v by move=> h; apply: hx; exact: (rademacher_probe tapeP h).
have [val [hv av]] := C25_hutch_unbiased uP flipK flipP X0 gauss tppf zq B r n0 b0 m0 hl hL.
have [val2 [hv2 av2]] := C27_hutch_variance uP flipK flipP X0 gauss tppf zq r n0 b0 m0 hl hL sB.
exists val; split=> // [t|].
  apply: matches_value (hv t).
  exact: (C93_slq_is_hutch tppf zq eps0 lapack n0 sA dA fuel batch (CCount F n) r full cb (t : seq X) H O hf hs).
rewrite -av2 /average; congr (_ / _); apply: eq_bigr => t _; by rewrite (value_inj (hv t) (hv2 t)).
Qed.

(* f within e of a polynomial with at most 2 deg coefficients on the spectrum: bias at most 2 e N *)
Theorem C93_bias fuel M0 batch n r full cb L D (f : F -> F) (B : 'M[F]_N) (p : {poly F}) (e : F) :
  built M0 -> mf_orth M0 <= 2 -> (forall v, signs v -> stop_at A (q0 v) tol (mf_deg M0) (mf_deg M0)) ->
  range_in A D -> applies_on D (mf_fun M0) f -> is_mxfun f A B ->
  (size p <= (mf_deg M0).*2)%N -> (forall t, D t -> `|f t - p.[t]| <= e) ->
  0 < batch -> 0 < n -> (nbatch n (eff full cb batch) < fuel)%N -> (draws full cb batch n * N <= L)%N ->
  exists val : seq X -> F,
   (forall t : L.-tuple X, slq_value (slq fuel M0 batch S (CCount F n) r full cb (t : seq X)) (val t)) /\
   `|average L val - \tr B| <= 2%:R * e * N%:R.
Proof.
move=> H O hs hD hf hB sp hp b0 m0 hl hL.
have R (t : L.-tuple X) := C93_run_error tppf zq eps0 lapack n0 sA dA gauss tapeP r (t : seq X) H O hs hD hf hB sp hp b0 m0 hl.
have [val [hv av]] := C25_hutch_unbiased uP flipK flipP X0 gauss tppf zq B r n0 b0 m0 hl hL.
have [t|w hw] := @choose L (fun t z => slq_value (slq fuel M0 batch S (CCount F n) r full cb t) z /\ `|z - val t| <= 2%:R * e * N%:R).
  by have [z [y [h1 h2 h3]]] := R t; exists z; rewrite (value_inj (hv t) h2).
exists w; split=> [t|]; first by case: (hw t).
rewrite -av ler_distl -average_add; apply/andP; split; rewrite -?average_add; apply: average_le => t;
  by have [_] := hw t; rewrite ler_distl => /andP[].
Qed.

(* f = 1/t, A positive definite: biased downwards, never negative *)
Theorem C93_inverse_bias fuel M0 batch n r full cb L :
  built M0 -> mf_orth M0 <= 2 -> (forall v, signs v -> stop_at A (q0 v) tol (mf_deg M0) (mf_deg M0)) ->
  applies_on (fun t => 0 < t) (mf_fun M0) (fun t => t^-1) -> posdef A ->
  0 < batch -> 0 < n -> (nbatch n (eff full cb batch) < fuel)%N -> (draws full cb batch n * N <= L)%N ->
  exists val : seq X -> F,
   (forall t : L.-tuple X, slq_value (slq fuel M0 batch S (CCount F n) r full cb (t : seq X)) (val t)) /\
   0 <= average L val <= \tr (invmx A).
Proof.
move=> H O hs hf pA b0 m0 hl hL.
have R (t : L.-tuple X) := C93_run_inverse tppf zq eps0 lapack n0 sA dA gauss tapeP r (t : seq X) H O hs hf pA b0 m0 hl.
have [val [hv av]] := C25_hutch_unbiased uP flipK flipP X0 gauss tppf zq (invmx A) r n0 b0 m0 hl hL.
have [t|w hw] := @choose L (fun t z => slq_value (slq fuel M0 batch S (CCount F n) r full cb t) z /\ 0 <= z <= val t).
  by have [z [y [h1 h2 h3]]] := R t; exists z; rewrite (value_inj (hv t) h2).
exists w; split=> [t|]; first by case: (hw t).
rewrite -av; apply/andP; split; last by apply: average_le => t; case: (hw t) => _ /andP[].
by rewrite /average divr_ge0 ?ler0n // sumr_ge0 // => t _; case: (hw t) => _ /andP[].
Qed.
End Tapes.

Print Assumptions C93_slq_is_hutch.
Print Assumptions C93_run_error.
Print Assumptions C93_run_inverse.
Print Assumptions C93_unbiased.
Print Assumptions C93_bias.
Print Assumptions C93_inverse_bias.
