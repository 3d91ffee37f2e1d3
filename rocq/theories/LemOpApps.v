(* An operator object whose products are those of a matrix B behaves in every estimator like B. *)
From Coq Require Import String.
From mathcomp Require Import all_ssreflect all_algebra zify.
From mathcomp Require Import complex.
From Verif Require Import Base Spec ModelStats LemStats ModelEstimators LemEstimators LemEst2 ModelTyping ModelRandom ModelTrace
  ModelHutchpp ModelXtrace LemXtrace LemXrun PropXtrace LemTrace ModelLanczos ModelTqli ModelQuadrature ModelSpecial ModelOperators ModelSLQ ModelToeplitz ModelOpApps.
Set Implicit Arguments.
Unset Strict Implicit.
Unset Printing Implicit Defensive.
Import Order.TTheory GRing.Theory Num.Theory.
Local Open Scope ring_scope.

Section Sim.
Variable F : rcfType.
Variable G : Type.
Variable unif : G -> rat * G.
Variable gauss : G -> F * G.
Variables (tppf : F -> nat -> F) (zq : F -> F).
Variable N : nat.
Variable S : Type.
Variable Inv : S -> Prop.
Implicit Types (s : S) (v : 'cV[F]_N) (g : G).

(* the method f computes h on the vectors of P *)
Definition computes (P : 'cV[F]_N -> Prop) T (f : S -> 'cV[F]_N -> outcome (T * S)) (h : 'cV[F]_N -> T) : Prop :=
  forall s v, Inv s -> P v -> exists s', f s v = Ret (h v, s') /\ Inv s'.

(* the outcome with an object is that of a function without one *)
Definition same T (o : outcome (T * S)) (r : res T) : Prop :=
  match r with
  | Ok x => exists s', o = Ret (x, s') /\ Inv s'
  | Err e => o = Raise e
  end.
Definition same_opt T (o : option (outcome (T * S))) (r : option (res T)) : Prop :=
  match o, r with Some o', Some r' => same o' r' | None, None => True | _, _ => False end.

Lemma eachP P T f h : @computes P T f h -> forall vs s, Inv s -> (forall v, v \in vs -> P v) ->
  exists s', each f s vs = Ret ([seq h v | v <- vs], s') /\ Inv s'.
Proof.
move=> H; elim=> [|v vs IH] s i hv; first by exists s.
have [s1 [/= -> i1]] := H s v i (hv v (mem_head _ _)).
have [|s2 [E2 i2]] := IH s1 i1; first by move=> w hw; apply: hv; rewrite in_cons hw orbT.
by rewrite /= E2; exists s2.
Qed.

Lemma mat_of_mul (B : 'M[F]_N) k (vs : seq 'cV[F]_N) : mat_of_cols k [seq B *m v | v <- vs] = B *m mat_of_cols k vs.
Proof.
apply/matrixP => i j; rewrite !mxE; case: (ltnP j (size vs)) => h.
  by rewrite (nth_map 0) // mxE; apply: eq_bigr => l _; rewrite mxE.
by rewrite nth_default ?size_map // mxE big1 // => l _; rewrite !mxE nth_default // mxE mulr0.
Qed.

Lemma mat_of_col k (X : 'M[F]_(N, k)) : mat_of_cols k [seq col j X | j <- enum 'I_k] = X.
Proof. by apply/matrixP => i j; rewrite !mxE (nth_map j) ?size_enum_ord // nth_ord_enum mxE. Qed.

Lemma matmatP P f (B : 'M[F]_N) : computes P f (mulmx B) -> forall k (X : 'M[F]_(N, k)) s, (0 < k)%N -> Inv s ->
  (forall j, P (col j X)) -> exists s', matmat f s X = Ret (B *m X, s') /\ Inv s'.
Proof.
move=> H k X s k0 i hX; rewrite /matmat eqn0Ngt k0 /=.
have [|s' [-> i']] := eachP H i (vs := [seq col j X | j <- enum 'I_k]); first by move=> v /mapP[j _ ->].
by exists s'; rewrite /= mat_of_mul mat_of_col.
Qed.

Variable A : linop F N S.
Variable B : 'M[F]_N.

(* quad, if there is one, is the quadratic form of B *)
Definition quad_ok (P : 'cV[F]_N -> Prop) : Prop :=
  if l_quad A is Some q then computes P q (quad_form (Oper B None)) else True.

Lemma dots_mul (vs : seq 'cV[F]_N) : dots vs [seq B *m v | v <- vs] = [seq quad_form (Oper B None) v | v <- vs].
Proof. by elim: vs => //= v vs IH; rewrite /dots /= -/(dots _ _) IH. Qed.

(* ---- hutch ------------------------------------------------------------------------- *)
Section Hutch.
Variable P : 'cV[F]_N -> Prop.
Hypothesis act : l_quad A = None -> computes P (l_mv A) (mulmx B).
Hypothesis qact : quad_ok P.
Variable sample : sampler F G N.
Hypothesis hs : forall k g v, v \in (sample k g).1 -> P v.

Lemma formsP s k vs : Inv s -> (forall v, v \in vs -> P v) -> (l_quad A = None -> (0 < k)%N) ->
  exists s', forms A s k vs = Ret ([seq quad_form (Oper B None) v | v <- vs], s') /\ Inv s'.
Proof.
move=> i hv hk; rewrite /forms; move: qact (act) hk; rewrite /quad_ok; case: (l_quad A) => [q|] hq ha hk; first exact: (eachP hq).
rewrite eqn0Ngt hk //=; have [s' [-> i']] := eachP (ha erefl) i hv; exists s'; split=> //=.
by rewrite dots_mul.
Qed.

Lemma hutch_loop fuel c b nt st s : Inv s -> (l_quad A = None -> b != 0) ->
  same_opt (oloop fuel (fun x => loop_test tppf zq c x.1) (ohutch_body A sample b nt) (st, s))
    (while_not fuel (loop_test tppf zq c) (hutch_body (Oper B None) sample b nt) st).
Proof.
move=> + hb; elim: fuel st s => [//|fuel IH] st s i /=; case: (loop_test _ _ _ _) => [[]|e] //; first by exists s.
rewrite [hutch_body _ _ _ _ st]/hutch_body /=.
case: ifP => // b0; case Es: (sample _ _) => [vs g'].
have [||s' [-> i']] := @formsP s `|b|%N vs i.
- by move=> v vv; apply: (hs (k := `|b|%N) (g := lo_gen st)); rewrite Es.
- by move=> /hb; rewrite absz_gt0.
by rewrite /=; case: (mest_update _ _) => est' [e|] //=; exact: IH.
Qed.

Lemma hutch_sim fuel s batch c r full cb g : Inv s -> (l_quad A = None -> batch != 0) ->
  same_opt (ohutch tppf zq A fuel s batch sample c r full cb g)
    (hutch tppf zq fuel (Oper B None) batch sample c r full cb g).
Proof.
move=> i hb; rewrite /ohutch /hutch; case: ifP => // _; first by exists s.
set st := LState _ _ _ _; case: ifP => _.
  have := hutch_loop fuel c cb st i hb; case: (oloop _ _ _ _) => [o|]; case: (while_not _ _ _ _) => [[st'|e]|] //=.
    by case=> s' [-> i']; exists s'.
  by move=> ->.
have := @hutch_loop fuel c 1 false st s i (fun _ => isT).
case: (oloop _ _ _ _) => [o|]; case: (while_not _ _ _ _) => [[st'|e]|] //=; first by case=> s' [-> i']; exists s'.
by move=> ->.
Qed.
End Hutch.

(* ---- diag --------------------------------------------------------------------------- *)
Section Diag.
Variable P : 'cV[F]_N -> Prop.
Hypothesis act : computes P (l_mv A) (mulmx B).
Variable sample : sampler F G N.
Hypothesis hs : forall g, P (head 0 (sample 1%N g).1).

Lemma diag_loop fuel c nt st s : Inv s ->
  same_opt (oloop fuel (fun x => diag_test tppf zq c x.1) (odiag_body A sample nt) (st, s))
    (while_not fuel (diag_test tppf zq c) (diag_body B sample nt) st).
Proof.
elim: fuel st s => [//|fuel IH] st s i /=; case: (diag_test _ _ _ _) => [[]|e] //; first by exists s.
rewrite [diag_body _ _ _ st]/diag_body /=; case Es: (sample _ _) => [vs g'].
have [|s' [-> i']] := act (v := head 0 vs) i; first by have := hs (ds_gen st); rewrite Es.
by rewrite /=; case: (mest_update _ _) => est' [e|] //=; exact: IH.
Qed.

Lemma diag_sim fuel s c full cb r g : Inv s ->
  same_opt (odiag tppf zq A fuel s sample c full cb r g) (diag tppf zq fuel B sample c full cb r g).
Proof.
move=> i; rewrite /odiag /diag; case: ifP => // _; first by exists s.
set st := DState _ _ _ _ _ _; have := @diag_loop fuel c cb st s i.
case: (oloop _ _ _ _) => [o|]; case: (while_not _ _ _ _) => [[st'|e]|] //=; first by case=> s' [-> i']; exists s'.
by move=> ->.
Qed.
End Diag.

(* ---- hutchpp ------------------------------------------------------------------------- *)
Section Hpp.
Variable P : 'cV[F]_N -> Prop.
Hypothesis act : computes P (l_mv A) (mulmx B).
Hypothesis qact : quad_ok P.
Variable qrQ : forall k, 'M[F]_(N, k) -> 'M[F]_(N, minn N k).
Variable sample : sampler F G N.

(* the vectors hutchpp multiplies with *)
Definition hpp_vectors (m : option int) (g : G) (v : 'cV[F]_N) : Prop :=
  let k := `|hpp_nb N m|%N in
  let: (ws, g1) := sample k g in
  let: (gs, g2) := sample k g1 in
  let Q := qrQ (B *m mat_of_cols k ws) in
  let W := mat_of_cols k gs in
  [\/ exists j : 'I_k, v = col j (mat_of_cols k ws), exists j : 'I_(minn N k), v = col j Q |
      exists j : 'I_k, v = col j (W - Q *m (Q^T *m W))].

Lemma hpp_sim s m mode (full : bool) g : Inv s -> hpp_nb N m != 0 -> (forall v, hpp_vectors m g v -> P v) ->
  (full -> (mode =? "full")%string \/ l_quad A = None) ->
  same (ohutchpp A qrQ s m mode sample full g) (hutchpp_run qrQ (Oper B None) m mode sample full g).
Proof.
move=> i nz; rewrite /hpp_vectors /ohutchpp /hutchpp_run.
case: ifP => [_ _ _|/negbT N0]; first by exists s.
case: ifP => [//|/negbT nb0]; set k := `|hpp_nb N m|%N.
have k0 : (0 < k)%N by rewrite absz_gt0.
have mk0 : (0 < minn N k)%N by rewrite leq_min lt0n N0 k0.
case: (sample k g) => ws g1; case Es: (sample k g1) => [gs g2] hv hf.
have [|s1 [-> i1]] := matmatP act (X := mat_of_cols k ws) k0 i; first by move=> j; apply: hv; apply: Or31; exists j.
rewrite /=; set Q := qrQ _ in hv *.
have hQ j : P (col j Q) by apply: hv; apply: Or32; exists j.
set r0 := (if (mode =? "full")%string then _ else _) : seq F.
set o := (if _ then obnd _ _ else _).
have {o} [s2 [-> i2]] : exists s2, o = Ret (r0, s2) /\ Inv s2.
  rewrite /o /r0; case: ifP => _.
    by have [s2 [-> i2]] := matmatP act (X := Q) mk0 i1 hQ; exists s2.
  have hc v : v \in [seq col j Q | j <- enum 'I_(minn N k)] -> P v by case/mapP=> j _ ->.
  move: qact; rewrite /quad_ok; case: (l_quad A) => [q|] hq.
    by have [s2 [-> i2]] := eachP hq i1 hc; exists s2; rewrite -map_comp.
  have [s2 [-> i2]] := eachP act i1 hc; exists s2; split=> //=; rewrite dots_mul -map_comp; by [].
rewrite /=; set W := mat_of_cols k gs in hv *.
have [|s3 [-> i3]] := matmatP act (X := W - Q *m (Q^T *m W)) k0 i2; first by move=> j; apply: hv; apply: Or33; exists j.
rewrite /= eqn0Ngt k0 /=; case: full hf => [hf|_]; last by exists s3.
rewrite ifF; first by exists s3.
by case: (hf isT) => [->|->] //; rewrite andbF.
Qed.

(* with `quad` and full=True the default mode ends in an exception *)
Lemma hpp_concat s m mode g : Inv s -> (0 < N)%N -> 0 < hpp_nb N m -> (forall v, hpp_vectors m g v -> P v) ->
  (mode =? "full")%string = false -> isSome (l_quad A) -> ohutchpp A qrQ s m mode sample true g = Raise ValueError.
Proof.
move=> i N0 nb; rewrite /hpp_vectors /ohutchpp eqn0Ngt N0 /= ltNge ltW //=; set k := `|hpp_nb N m|%N.
have k0 : (0 < k)%N by rewrite absz_gt0 gt_eqF.
have mk0 : (0 < minn N k)%N by rewrite leq_min N0 k0.
case: (sample k g) => ws g1; case Es: (sample k g1) => [gs g2] hv mf; rewrite mf.
have [|s1 [-> i1]] := matmatP act (X := mat_of_cols k ws) k0 i; first by move=> j; apply: hv; apply: Or31; exists j.
rewrite /=; set Q := qrQ _ in hv *.
have hc v : v \in [seq col j Q | j <- enum 'I_(minn N k)] -> P v.
  by case/mapP=> j _ ->; apply: hv; apply: Or32; exists j.
move: qact; rewrite /quad_ok; case: (l_quad A) => [q|//] hq _.
have [s2 [-> i2]] := eachP hq i1 hc; rewrite /=; set W := mat_of_cols k gs in hv *.
have [|s3 [-> i3]] := matmatP act (X := W - Q *m (Q^T *m W)) k0 i2; first by move=> j; apply: hv; apply: Or33; exists j.
by [].
Qed.
End Hpp.

(* ---- xdiag ----------------------------------------------------------------------------- *)
Section Xdiag.
Variable P : 'cV[F]_N -> Prop.
Hypothesis act : computes P (l_mv A) (mulmx B).
Hypothesis ract : computes P (l_rmv A) (mulmx B^T).
Variable qr : forall k, 'M[F]_(N, k) -> 'M[F]_(N, k) * 'M[F]_k.
Variable sample : sampler F G N.

(* the vectors xdiag multiplies with *)
Definition xdiag_vectors (m : option int) (g : G) (v : 'cV[F]_N) : Prop :=
  let k := `|xdiag_m N m|%N in
  let M := mat_of_cols k (sample k g).1 in
  (exists j : 'I_k, v = col j M) \/ exists j : 'I_k, v = col j (qr (B *m M)).1.

Lemma xdiag_sim s m g : Inv s -> xdiag_m N m != 0 -> (forall v, xdiag_vectors m g v -> P v) ->
  same (oxdiag A qr s m sample g) (xdiag_run qr B m sample g).
Proof.
move=> i nz; rewrite /xdiag_vectors /oxdiag /xdiag_run; case: ifP => // _; set k := `|xdiag_m N m|%N.
have k0 : (0 < k)%N by rewrite absz_gt0.
case: (sample k g) => vs g' hv; have [|s1 [-> i1]] := matmatP act (X := mat_of_cols k vs) k0 i.
  by move=> j; apply: hv; left; exists j.
rewrite /= in hv *; case: (qr _) hv => Q R /= hv; have [|s2 [-> i2]] := matmatP ract (X := Q) k0 i1.
  by move=> j; apply: hv; right; exists j.
rewrite /=; case: ifP => // _; exists s2; rewrite eqn0Ngt k0; split=> //.
Qed.
End Xdiag.

(* ---- xtrace ------------------------------------------------------------------------------ *)
Section X.
Variable P : 'cV[F]_N -> Prop.
Hypothesis act : computes P (l_mv A) (mulmx B).
Variable qr_insert : forall k, 'M[F]_(N, k) -> 'M[F]_k -> 'cV[F]_N -> 'M[F]_(N, k + 1) * 'M[F]_(k + 1).

(* the states xtrace on the matrix B goes through, and the vectors it multiplies with *)
Inductive xreach (batch : int) (sample : sampler F G N) (r nt : bool) (g : G) : xstate F G N -> Prop :=
| xreach0 : xreach batch sample r nt g (xtrace_init F N r g)
| xreachS st st' : xreach batch sample r nt g st -> (size (xs_probes st) < N)%N -> xtrace_body qr_insert B batch sample r nt st = Ok st' ->
    xreach batch sample r nt g st'.
Definition xtrace_vectors (batch : int) (sample : sampler F G N) (r nt : bool) (g : G) (v : 'cV[F]_N) : Prop :=
  exists st, xreach batch sample r nt g st /\
    (v \in xs_probes st \/ exists j : 'I_(nd_c (fq (xs_fac st))), v = col j (to_mx N (nd_c (fq (xs_fac st))) (fq (xs_fac st)))).

Lemma xtrace_step sample b r nt g0 st s : sample_ok sample -> (0 < b)%N -> Inv s ->
  (forall v, xtrace_vectors b%:Z sample r nt g0 v -> P v) -> xreach b%:Z sample r nt g0 st ->
  xinv qr_insert B b sample r nt g0 st -> (xk st < N)%N ->
  same (oxtrace_body A qr_insert b%:Z sample r nt (st, s)) (xtrace_body qr_insert B b%:Z sample r nt st).
Proof.
move=> ok b0 i hP re xi kn; have [st' [E _ _]] := xstep ok b0 xi kn; rewrite E.
have re' := xreachS re kn E.
have shp := xi_shape xi; move: E; rewrite /xtrace_body /oxtrace_body (xi_Wc xi).
set ns := minn _ _; have ns0 : (0 < ns)%N by rewrite leq_min subn_gt0 kn.
case Es: (sample ns (xs_gen st)) => [vs g']; have sv : size vs = ns by rewrite -(ok ns (xs_gen st)) Es.
have [fac [ef shf]] := insert_cols_shape qr_insert [seq col j (B *m mat_of_cols ns vs) | j <- enum 'I_ns] shp.
rewrite ef; case: fac ef shf => -[q rr] ri ef [sq _ _]; rewrite [bind _ _]/=.
set u := mest_update _ _ => Est.
have [hpr hfq] : xs_probes st' = xs_probes st ++ vs /\ fq (xs_fac st') = q.
  by move: Est; case: u => est' [e|] //= -[<-].
have [|s1 [-> i1]] := matmatP act (X := mat_of_cols ns vs) ns0 i.
  move=> j; apply: hP; exists st'; split=> //; left; rewrite hpr mem_cat; apply/orP; right.
  suff -> : col j (mat_of_cols ns vs) = vs`_j by apply: mem_nth; rewrite sv.
  by apply/colP => a; rewrite !mxE.
rewrite /= ef.
have k0 : (0 < nd_c (last_cols ns q))%N.
  by rewrite /= sq size_map size_enum_ord [ns == 0%N]eqn0Ngt ns0 addnK addKn.
have [|s2 [E2 i2]] := matmatP act (X := to_mx N (nd_c (last_cols ns q)) (last_cols ns q)) k0 i1.
  move=> j; apply: hP; exists st'; split=> //; right; rewrite hfq.
  have hj : ((if ns == 0%N then 0%N else nd_c q - ns) + j < nd_c q)%N.
    have := ltn_ord j; move: (nat_of_ord j) => jj; rewrite [nd_c _]/=; clear; case: ifP => _; move: (nd_c q) => c; lia.
  by exists (Ordinal hj); apply/colP => a; rewrite !mxE.
by rewrite E2 /= -/u; case: u Est => est' [e|] //= -[<-]; exists s2.
Qed.

Lemma xtrace_loop sample b r nt g0 c fuel st s : sample_ok sample -> (0 < b)%N -> Inv s ->
  (forall v, xtrace_vectors b%:Z sample r nt g0 v -> P v) -> xreach b%:Z sample r nt g0 st ->
  (c = CCount F N%:Z \/ c = COr (CCount F N%:Z) (CCount F N%:Z)) ->
  xinv qr_insert B b sample r nt g0 st ->
  same_opt (oloop fuel (fun x => xtrace_test tppf zq c x.1) (oxtrace_body A qr_insert b%:Z sample r nt) (st, s))
    (while_not fuel (xtrace_test tppf zq c) (xtrace_body qr_insert B b%:Z sample r nt) st).
Proof.
move=> ok b0 + hP + hc; elim: fuel st s => [//|fuel IH] st s i re xi; rewrite /oloop -/(oloop fuel) /while_not -/(while_not fuel).
rewrite [xtrace_test _ _ _ (_, _).1]/= (xtest tppf zq b0 xi hc) remaining_gt0 //.
case: leqP => kn; first by exists s.
have [st' [E xi' _]] := xstep ok b0 xi kn; have := xtrace_step ok b0 i hP re xi kn; rewrite E.
by case=> s' [-> i']; apply: IH => //; exact: (xreachS re kn E).
Qed.

Lemma xtrace_sim fuel s batch p sample c kw r full cb g : hutch_pdf unif gauss N p = Ok sample -> sample_ok sample -> Inv s ->
  (forall v, xtrace_vectors batch sample r cb g v -> P v) ->
  same_opt (oxtrace unif gauss tppf zq A qr_insert fuel s batch p c kw r full cb g)
    (xtrace unif gauss tppf zq qr_insert fuel B batch p c kw r full cb g).
Proof.
move=> hp ok i hP; rewrite /oxtrace /xtrace; case: ifP => // /negbFE hb.
have [cr [-> hc]] := criterion_cases N c kw; rewrite hp.
have b0 : (0 < `|batch|)%N by rewrite absz_gt0 gt_eqF // (lt_le_trans ltr01).
have eb : batch = `|batch|%N%:Z by rewrite gtz0_abs // (lt_le_trans ltr01).
move: hP; rewrite {1}eb => hP; rewrite eb.
have := xtrace_loop fuel ok b0 i hP (xreach0 _ _ _ _ _) hc (xinv0 qr_insert B `|batch|%N sample r cb g).
case: (oloop _ _ _ _) => [o|]; case: (while_not _ _ _ _) => [[st'|e]|] //=; first by case=> s' [-> i']; exists s'.
by move=> ->.
Qed.
End X.
End Sim.
