(* C97: diag on a MatrixFunction for any f; C96 and C97: examples. *)
From Coq Require Import String.
From mathcomp Require Import all_ssreflect all_algebra zify ring.
From mathcomp Require Import complex.
From Verif Require Import Base Spec ModelStats LemStats PropStats ModelEstimators LemEstimators LemEst2
  PropEstimators ModelTyping ModelRandom ModelTrace LemTrace PropTrace PropUnbiased PropDiag ModelHutchpp PropHutchpp.
From Verif Require Import ModelXtrace LemXtrace LemXrun PropXtrace ModelLanczos LemLanczos SpecLanczos LemLanczos2 LemLanczos3 LemLanczos4
  ModelTqli ModelQuadrature ModelSpecial ModelOperators SpecTridiag SpecQuad SpecOperators LemSpectral LemQuad PropQuad
  PropOperators LemOperators LemOperators2 PropMatFun PropMatFun2 PropMatFun3 PropMatFun4 PropAccuracy ModelSLQ PropSLQ PropSLQ2
  ModelToeplitz LemToeplitz PropToeplitz ModelOpApps LemOpApps PropOpApps.
Set Implicit Arguments.
Unset Strict Implicit.
Unset Printing Implicit Defensive.
Import Order.TTheory GRing.Theory Num.Theory.
Local Open Scope ring_scope.


(* ---- diag on an object whose products are off by at most d ------------------------------ *)
Section DiagErr.
Variable F : rcfType.
Variable G : Type.
Variables (tppf : F -> nat -> F) (zq : F -> F).
Variables (N : nat) (S : Type).
Variable Inv : S -> Prop.
Variable A : linop F N S.
Variable B : 'M[F]_N.
Variable d : F.
Hypothesis N0 : (0 < N)%N.
Hypothesis act : forall s v, Inv s -> signs v -> exists (u : 'cV[F]_N) s',
  [/\ l_mv A s v = Ret (u, s'), Inv s' & forall i, `|u i 0 - (B *m v) i 0| <= d].
Variable sample : sampler F G N.
Hypothesis ok : sample_ok sample.
Hypothesis hs : forall g, signs (head 0 (sample 1%N g).1).
Variables (g0 : G) (rec nt : bool).

Definition near_rows (rows : seq (seq F)) (vs : seq 'cV[F]_N) : Prop :=
  size rows = size vs /\
  forall k (i : 'I_N), (k < size vs)%N -> `|(nth [::] rows k)`_i - ratio B (take k.+1 vs) i| <= d.

Definition dinv (st : dstate F G N) : Prop := exists k rows dl, let vs := dprobes sample k g0 in
  [/\ ds_probes st = vs, ds_gen st = gen_after sample 1 k g0, ds_est st = mest_of N false rec rows dl,
      near_rows rows vs &
      forall i, `|ds_numer st i 0 - \sum_(v <- vs) (B *m v) i 0 * v i 0| <= d * k%:R /\ ds_denom st i 0 = k%:R].

Lemma dinv0 : dinv (DState (mest_init F N false rec) g0 0 0 [::] [::]).
Proof.
exists 0%N, [::], (nseq N PInf); split=> //=; first by rewrite mest_init_of.
by move=> i; rewrite big_nil !mxE subr0 normr0 mulr0.
Qed.

Lemma signs_sum vs (i : 'I_N) : (forall v, v \in vs -> signs v) -> \sum_(v <- vs) v i 0 ^+ 2 = (size vs)%:R :> F.
Proof.
elim: vs => [|v vs IH] h; first by rewrite big_nil.
rewrite big_cons IH => [|w hw]; last by apply: h; rewrite in_cons hw orbT.
by case: (h v (mem_head _ _) i) => ->; rewrite ?sqrrN expr1n [RHS]mulrS.
Qed.

Lemma dprobes_signs k v : v \in dprobes sample k g0 -> signs v.
Proof.
elim: k => [//|k IH]; rewrite dprobes_S // mem_rcons in_cons => /orP[/eqP ->|]; [exact: hs|exact: IH].
Qed.

Lemma dinv_step st s : dinv st -> Inv s -> exists st' s', [/\ odiag_body A sample nt (st, s) = Ret (st', s'), dinv st', Inv s' &
  size (ds_probes st') = (size (ds_probes st)).+1].
Proof.
case=> k [rows [dl [Ep Eg Ee [sr nr] hn]]] hi; rewrite /odiag_body Eg Ee Ep.
case Es: (sample _ _) => [ws g']; have sv := hs (gen_after sample 1 k g0); rewrite Es [_.1]/= in sv.
have [u [s' [-> hi' hu]]] := act hi sv; rewrite [obnd _ _]/=.
set v := head 0 ws in sv hu *; set vs := dprobes sample k g0 in Ep sr nr hn *.
set row := vdiv _ _; rewrite mest_update_good; last by rewrite /good_batch /cols_of /rows_of /= eqxx.
have Evs : dprobes sample k.+1 g0 = rcons vs v by rewrite dprobes_S // Es.
have szv : size vs = k by apply: size_dprobes.
have dn i : (ds_denom st + \col_i (v i 0 ^+ 2)) i 0 = k.+1%:R.
  by rewrite !mxE (hn i).2; case: (sv i) => ->; rewrite ?sqrrN expr1n mulrSr.
have nn i : `|(ds_numer st + \col_i (u i 0 * v i 0)) i 0 - \sum_(w <- rcons vs v) (B *m w) i 0 * w i 0| <= d * k.+1%:R.
  rewrite -cats1 big_cat big_seq1 [in X in `|X|]/= mulrSr mulrDr mulr1.
  have -> : (ds_numer st + \col_i (u i 0 * v i 0)) i 0 - (\sum_(w <- vs) (B *m w) i 0 * w i 0 + (B *m v) i 0 * v i 0) =
      (ds_numer st i 0 - \sum_(w <- vs) (B *m w) i 0 * w i 0) + (u i 0 - (B *m v) i 0) * v i 0.
    by rewrite mxE [(\col_i _) _ _]mxE mulrBl opprD addrACA.
  apply: (le_trans (ler_norm_add _ _)); apply: ler_add; first exact: (hn i).1.
  by rewrite normrM; case: (sv i) => ->; rewrite ?normrN normr1 mulr1.
exists (DState (mest_of N false rec (rows ++ rows_of (Arr2 N [:: row])) (delta_of N rows (rows ++ rows_of (Arr2 N [:: row])))) g'
   (ds_numer st + \col_i (u i 0 * v i 0)) (ds_denom st + \col_i (v i 0 ^+ 2))
   (if nt then rcons (ds_seen st) (EResult (Some (mest_of N false rec (rows ++ rows_of (Arr2 N [:: row])) (delta_of N rows (rows ++ rows_of (Arr2 N [:: row]))))) (PFloat (Fin 0)) 0) else ds_seen st)
   (rcons vs v)), s'; split=> //; last by rewrite /= size_rcons -/vs.
exists k.+1, (rows ++ [:: row]), (delta_of N rows (rows ++ [:: row])); rewrite Evs; split=> //.
- by rewrite gen_after_S Es.
- split; first by rewrite size_cat size_rcons sr addn1.
  move=> j i; rewrite size_rcons ltnS leq_eqVlt => /orP[/eqP ->|hj]; last first.
    by rewrite nth_cat sr hj -cats1 takel_cat //; exact: nr.
  rewrite nth_cat sr ltnn subnn /= take_oversize ?size_rcons //.
  have -> : row`_i = (ds_numer st + \col_i (u i 0 * v i 0)) i 0 / k.+1%:R.
    rewrite /row /vdiv (nth_map i) ?size_enum_ord // nth_ord_enum; congr (_ / _); exact: dn.
  rewrite /ratio signs_sum => [|w]; last by rewrite -Evs; exact: dprobes_signs.
  rewrite size_rcons szv -mulrBl normrM [`|_^-1|]ger0_norm ?invr_ge0 ?ler0n //.
  by rewrite ler_pdivr_mulr ?ltr0n.
Qed.

Lemma dinv_loop fuel c st s o : dinv st -> Inv s ->
  oloop fuel (fun x => diag_test tppf zq c x.1) (odiag_body A sample nt) (st, s) = Some o ->
  match o with
  | Ret (st', s') => [/\ dinv st', Inv s' & diag_test tppf zq c st' = Ok true]
  | Raise e => exists st', dinv st' /\ diag_test tppf zq c st' = Err e
  | _ => False
  end.
Proof.
elim: fuel st s => [//|fuel IH] st s di hi; rewrite /oloop -/(oloop fuel).
case E: (diag_test _ _ _ _) => [[]|e]; first by case=> <-.
  by have [st' [s' [-> di' hi' _]]] := dinv_step di hi; exact: IH.
by case=> <-; exists st.
Qed.

Lemma dinv_count fuel n st s : dinv st -> Inv s -> (size (ds_probes st) <= n)%N -> (n - size (ds_probes st) < fuel)%N ->
  exists st' s', oloop fuel (fun x => diag_test tppf zq (CCount F n%:Z) x.1) (odiag_body A sample nt) (st, s) = Some (Ret (st', s')) /\
    [/\ dinv st', Inv s' & size (ds_probes st') = n].
Proof.
elim: fuel st s => [//|fuel IH] st s di hi sn hf; rewrite /oloop -/(oloop fuel).
have -> : diag_test tppf zq (CCount F n%:Z) (st, s).1 = Ok (n%:Z <= (size (ds_probes st))%:Z).
  by case: di => k [rows [dl [-> _ Ee [sr _] _]]]; rewrite /= /diag_test Ee /= /count_call /= sr.
rewrite lez_nat; have [h|hn] := leqP n (size (ds_probes st)).
  by exists st, s; split=> //; split=> //; apply/eqP; rewrite eqn_leq sn h.
have [st' [s' [-> di' hi' sz]]] := dinv_step di hi.
by apply: IH => //; rewrite sz //; clear -hn hf; lia.
Qed.

(* the value after the loop *)
Lemma dinv_value st : dinv st -> (0 < size (ds_probes st))%N -> exists y : 'I_N -> F,
  pyval_x N (mest_estimate (ds_est st)) = [seq Fin (y i) | i <- enum 'I_N] /\
  forall i, `|y i - avg [seq ratio B (take k.+1 (ds_probes st)) i | k <- iota 0 (size (ds_probes st))]| <= d.
Proof.
case=> k [rows [dl [Ep _ -> [sr nr] _]]]; rewrite Ep => s0; exists (fun i => cavg rows i); split=> [|i].
  rewrite /mest_estimate /= pyval_x_read ?sr //; apply: (@eq_from_nth _ NaN); first by rewrite size_mkseq size_map size_enum_ord.
  move=> i; rewrite size_mkseq => hi; rewrite nth_mkseq // (nth_map (Ordinal N0)) ?size_enum_ord //.
  by rewrite nth_enum_ord.
have -> : cavg rows i = avg [seq (nth [::] rows j)`_i | j <- iota 0 (size (dprobes sample k g0))].
  rewrite /cavg /col_of; congr avg; rewrite -{1}[rows](mkseq_nth [::]) /mkseq -map_comp sr; exact: eq_map.
rewrite /avg !size_map !size_iota !big_map -mulrBl -sumrB normrM [`|_^-1|]ger0_norm ?invr_ge0 ?ler0n //.
rewrite ler_pdivr_mulr ?ltr0n // (le_trans (ler_norm_sum _ _ _)) //.
have -> : d * (size (dprobes sample k g0))%:R = \sum_(j <- iota 0 (size (dprobes sample k g0))) d.
  by rewrite big_const_seq count_predT size_iota iter_addr_0 mulr_natr.
rewrite !big_seq; apply: ler_sum => j.
by rewrite mem_iota add0n => /andP[_ hj]; exact: nr.
Qed.
End DiagErr.

Section MFerr.
Variable F : rcfType.
Variable G : Type.
Variables (tppf : F -> nat -> F) (zq : F -> F).
Variables (eps : F) (fexp flog : F -> F) (feps : F).
Hypothesis eps0 : 0 <= eps.
Variable lv : seq F -> seq F -> res (seq F).
Variable lp : seq F -> seq F -> res (seq F * seq (seq F)).
Hypothesis lapack : lapack_ok lv lp.
Variable N : nat.
Variable A : 'M[F]_N.
Hypothesis n0 : (0 < N)%N.
Hypothesis sA : A^T = A.
Variables (kd : okind) (dA : dty).
Local Notation tol := (Num.sqrt N%:R * (1 / 10%:R ^+ 8)).
Local Notation q0 v := ((vnorm v)^-1 *: v).
Local Notation built := (built fexp flog feps N kd).
Local Notation after_calls := (after_calls eps lv lp A kd dA).
Local Notation mop := (mf_linop eps lv lp A kd dA).
Variables (M0 : mfobj F) (D : pred F) (f : F -> F) (B : 'M[F]_N) (p : {poly F}) (e : F).
Hypothesis H : built M0.
Hypothesis hs : forall v : 'cV[F]_N, signs v -> stop_at A (q0 v) tol (mf_deg M0) (mf_deg M0).
Hypothesis hD : range_in A D.
Hypothesis hf : applies_on D (mf_fun M0) f.
Hypothesis hB : is_mxfun f A B.
Hypothesis sp : (size p <= mf_deg M0)%N.
Hypothesis hp : forall t, D t -> `|f t - p.[t]| <= e.
Variable sample : sampler F G N.
Hypothesis ok : sample_ok sample.
Hypothesis sg : forall g, signs (head 0 (sample 1%N g).1).

Lemma entry_le (x : 'cV[F]_N) i : `|x i 0| <= vnorm x.
Proof.
rewrite -ler_sqr ?nnegrE ?normr_ge0 ?vnorm_ge0 // vnorm_sq dtE (bigD1 i) //= -normrX expr2 ger0_norm ?ler_addl.
  by rewrite sumr_ge0 // => j _; rewrite -expr2 sqr_ge0.
by rewrite -expr2 sqr_ge0.
Qed.

Lemma mf_near M v : after_calls M0 M -> signs v -> exists (u : 'cV[F]_N) M',
  [/\ l_mv mop M v = Ret (u, M'), after_calls M0 M' & forall i, `|u i 0 - (B *m v) i 0| <= 2%:R * e * Num.sqrt N%:R].
Proof.
move=> C sv; have hv := hs sv; have v0 := signs_neq0 n0 sv; rewrite -(vec_colseq v) in hv v0.
have [u [Eu hu]] := C91_matvec_error eps0 lapack n0 sA H C (size_colseq v) v0 hv hD hf hB sp hp.
have [M' [Ea C']] := mf_applyE C Eu; exists u, M'; split=> // i; rewrite vec_colseq in hu.
have -> : u i 0 - (B *m v) i 0 = (u - B *m v) i 0 by rewrite !mxE.
apply: (le_trans (entry_le _ _)); apply: (le_trans hu).
suff -> : vnorm v = Num.sqrt N%:R by [].
by rewrite -(vnorm_signs sv) sqrtr_sqr ger0_norm ?vnorm_ge0.
Qed.

(* every entry of a completed run is within 2 e sqrt(N) of what the same probes give with f(A);
   the run ends only by the criterion's decision *)
Theorem C97_diag_error fuel M c (full cb rec : bool) g o : after_calls M0 M ->
  odiag tppf zq mop fuel M sample c full cb rec g = Some o ->
  match o with
  | Ret (out, M') => after_calls M0 M' /\
      let vs := run_probes out in
      vs = dprobes sample (size vs) g /\ ((0 < size vs)%N -> exists y : 'I_N -> F,
        pyval_x N (ret_value (run_ret out)) = [seq Fin (y i) | i <- enum 'I_N] /\
        forall i, `|y i - avg [seq (\sum_(v <- take k.+1 vs) (B *m v) i 0 * v i 0) / (\sum_(v <- take k.+1 vs) v i 0 ^+ 2)
                             | k <- iota 0 (size vs)]| <= 2%:R * e * Num.sqrt N%:R)
  | Raise x => exists ev, crit_call tppf zq c ev = Err x
  | _ => False
  end.
Proof.
move=> C; rewrite /odiag eqn0Ngt n0 /=; case E: (oloop _ _ _ _) => [o'|//] [<-].
have := dinv_loop mf_near ok sg (dinv0 B _ _ g rec) C E.
case: o' {E} => [||x|[st M']] //=.
  by case=> st [_ ex]; exists (mest_view (ds_est st)).
case=> di C' _; split=> //; split.
  by case: (di) => k [rows [dl [-> _ _ _ _]]]; rewrite size_dprobes.
move=> s0; have [y [ey hy]] := dinv_value n0 di s0; exists y; split=> //.
by case: ifP => _ /=.
Qed.

(* and with CountCriterion(n) it does complete, after n probes *)
Theorem C97_diag_error_count fuel M n (full cb rec : bool) g : after_calls M0 M -> (n < fuel)%N ->
  exists out M', odiag tppf zq mop fuel M sample (CCount F n%:Z) full cb rec g = Some (Ret (out, M')) /\
    run_probes out = dprobes sample n g.
Proof.
move=> C hf'; rewrite /odiag eqn0Ngt n0 /=.
have i0 := dinv0 B (2%:R * e * Num.sqrt N%:R) sample g rec.
have [//|st [M' [-> [di C' sz]]]] := @dinv_count _ _ tppf zq _ _ _ mop B (2%:R * e * Num.sqrt N%:R) mf_near sample ok sg g rec cb fuel n _ M i0 C (leq0n n).
  by rewrite subn0.
eexists; exists M'; split; first by reflexivity.
by rewrite /=; case: di sz => k [rows [dl [-> _ _ _ _]]]; rewrite size_dprobes // => ->.
Qed.
End MFerr.

(* ---- examples ---------------------------------------------------------------------------- *)
Section Ex96.
Variable F : rcfType.
Variables (tppf : F -> nat -> F) (zq : F -> F).
Let rt := @root_ref F.
Let rtP : forall n, (0 < n)%N -> n.-primitive_root (rt n) := @root_refP F.
Let c := [:: 1; 2%:R] : seq F.
Let r := [:: 1; 3%:R] : seq F.
(* every probe is (1, 1) *)
Definition ones_sampler n : sampler F unit n := fun k g => (nseq k (const_mx 1), g).
Lemma ones_ok n : sample_ok (@ones_sampler n).
Proof. by move=> k g; rewrite size_nseq. Qed.

(* column (1,2) and row (1,3), after a failing call: hutch gives 1 + 3 + 2 + 1 = 7; diag gives
   (1 + 5/2, 1 + 5/2); xdiag fails *)
Example C96_ex : exists T0, t_init rt c (Some r) id = Ok T0 /\
  let T := t_run rt T0 [:: TMatvec [:: 7%:R]] in
  [/\ exists out T', ohutch tppf zq (toep_linop 2 rt) 3 T 32 (@ones_sampler 2) (CCount F 2) false false false tt = Some (Ret (out, T')) /\
        ret_value (run_ret out) = PFloat (Fin 7%:R),
      exists out T', odiag tppf zq (toep_linop 2 rt) 3 T (@ones_sampler 2) (CCount F 2) false false false tt = Some (Ret (out, T')) /\
        pyval_x 2 (ret_value (run_ret out)) = [seq Fin (7%:R / 2%:R) | i <- enum 'I_2] &
      oxdiag (toep_linop 2 rt) (fun k Y => (Y, 1%:M)) T (Some 2) (@ones_sampler 2) tt = Raise NotImplementedError].
Proof.
have [T0 e0 _] := t_initP rt c (Some r) id; exists T0; split=> // T.
have u : used rt T0 T by exists [:: TMatvec [:: 7%:R]].
split.
- have := @C96_hutch F unit tppf zq rt rtP c (Some r) T0 isT erefl e0 3 T 32 (@ones_sampler 2) (CCount F 2) false false false tt u isT.
  have [out [-> [hp hs hv]]] := @count_value F unit tppf zq 2 3 (Oper (toep 2 c r) None) 32 (@ones_sampler 2) 2 false false false tt (@ones_ok 2) isT isT isT isT.
  case: (ohutch _ _ _ _ _ _ _ _ _ _ _ _) => [o|//] [T' [-> _]]; exists out, T'; split=> //; rewrite hv hp.
  have q v : v = const_mx 1 -> qf (Oper (toep 2 c r) None) v = 7%:R.
    by move=> ->; rewrite /qf /= ; do ![rewrite !mxE|rewrite !big_ord_recl|rewrite !big_ord0]; rewrite /=; ring.
  rewrite -[nbatch _ _]/2%N -[eff _ _ _]/1%N /= /avg /= !big_cons big_nil !q //; congr (PFloat (Fin _)); by field.
- have := @C96_diag F unit tppf zq rt rtP c (Some r) T0 isT erefl e0 3 T (@ones_sampler 2) (CCount F 2) false false false tt u.
  set B := 2%:R^-1 *: _.
  have [out [E hz]] := @C81_diag_count F unit tppf zq 2 3 B (@ones_sampler 2) 2 false false false tt (@ones_ok 2) isT isT.
  have [hv hd] := C40_diag_value (@ones_ok 2) isT E; rewrite E.
  case: (odiag _ _ _ _ _ _ _ _ _ _ _) => [o|//] [T' [-> _]]; exists out, T'; split=> //; rewrite hv.
  have b v (i : 'I_2) : v = const_mx 1 -> (B *m v) i 0 * v i 0 = 7%:R / 2%:R.
    move=> ->; rewrite !mxE !big_ord_recl !big_ord0 !mxE /=.
    by case: i => [[|[|//]] hi] /=; field.
  rewrite hd hz /= ; apply: eq_map => i; congr Fin.
  by rewrite /avg /= !big_cons !big_nil !b // !mxE; field.
- exact: (@C96_xdiag_refuted F unit rt rtP c (Some r) T0 isT erefl e0 T).
Qed.
End Ex96.

Section Ex97.
Variable F : rcfType.
Variables (tppf : F -> nat -> F) (zq : F -> F).
Variables (eps : F) (fexp flog : F -> F) (feps : F).
Hypothesis eps0 : 0 <= eps.
Notation lv := (@ref_vals F).
Notation lp := (@ref_pairs F).
Notation ini n f := (mf_init fexp flog feps (sq_array n) f (no_kw F)).
Notation P := (P3 (2%:R : F)).
Notation tol3 := (Num.sqrt 3%:R * (1 / 10%:R ^+ 8)).

(* f(t) = 3 t + 1 with deg = 2, all probes (1,1,1): the diagonal estimate of 3 P + 1 is (10, 13, 10) *)
Example C97_diag_ex : exists M0, ini 3 (fcall (fun t => Fin (3%:R * t + 1))) 2 3 F64 = Ok M0 /\
  exists out M', odiag tppf zq (mf_linop eps lv lp P KDense F64) 3 M0 (@ones_sampler F 3) (CCount F 2) false false false tt = Some (Ret (out, M')) /\
    pyval_x 3 (ret_value (run_ret out)) = [seq Fin (if (i : 'I_3) == 1 then 13%:R else 10%:R) | i <- enum 'I_3].
Proof.
have [M0 [E0 H hf d0 _]] := @ex_built F eps fexp flog feps eps0 3 (fun t => Fin (3%:R * t + 1)) 2 3 isT.
have {}d0 : mf_deg M0 = 2%N by rewrite d0.
exists M0; split=> //; pose B : 'M[F]_3 := polymx (3%:R *: 'X + 1) P.
have sp : size (3%:R *: 'X + 1 : {poly F}) = 2%N.
  by rewrite -mul_polyC size_MXaddC polyC_eq0 pnatr_eq0 /= size_polyC pnatr_eq0.
have B3 : B = 3%:R *: P + 1%:M.
  rewrite /B /polymx sp !big_ord_recl big_ord0 addr0 /= !coefD !coefZ !coefX !coef1 /=.
  by rewrite !mulr0 !mulr1 add0r addr0 scale1r mulmx1 addrC.
have C0 : after_calls eps lv lp P KDense F64 M0 M0 by exists [::].
have hx g : exact_vec P M0 (fun t => 3%:R * t + 1) B (head 0 (@ones_sampler F 3 1%N g).1).
  exists 2%N; rewrite d0; split; first by apply: signs_stop => i; left; rewrite /= mxE.
  left; split=> //; exists (3%:R *: 'X + 1); split=> // [t|]; first by rewrite !hornerE.
  by rewrite sp.
have := C97_diag tppf zq eps0 (@ref_ok F) (isT : (0 < 3)%N) (P3_sym 2%:R) 3 (CCount F 2) false false false tt H C0 hf hx.
have [out [E hz]] := @C81_diag_count F unit tppf zq 3 3 B (@ones_sampler F 3) 2 false false false tt (@ones_ok F 3) isT isT.
have [hv hd] := C40_diag_value (@ones_ok F 3) isT E; rewrite E.
case: (odiag _ _ _ _ _ _ _ _ _ _ _) => [o|//] [T' [-> _]]; exists out, T'; split=> //; rewrite hv.
have b v (i : 'I_3) : v = const_mx 1 -> (B *m v) i 0 * v i 0 = if i == 1 then 13%:R else 10%:R.
  move=> ->; rewrite B3 !mxE !sum3 !mxE -!val_eqE /= !inordK //.
  by case: i => [[|[|[|//]]] hi] /=; ring.
rewrite hd hz /= ; apply: eq_map => i; congr Fin.
rewrite /avg /= !big_cons !big_nil !b // !mxE; by case: (i == 1); field.
Qed.

(* f(t) = t + |t - 2| / 10: within 2 * 3/20 * sqrt(3) of the estimate for f(P) *)
Example C97_diag_error_ex : let f (t : F) := t + `|t - 2%:R| / 10%:R in
  exists M0 B, [/\ ini 3 (fcall (fun t => Fin (f t))) 2 3 F64 = Ok M0, is_mxfun f P B &
  exists out M' (y : 'I_3 -> F), [/\ odiag tppf zq (mf_linop eps lv lp P KDense F64) 3 M0 (@ones_sampler F 3) (CCount F 1) false false false tt = Some (Ret (out, M')),
    pyval_x 3 (ret_value (run_ret out)) = [seq Fin (y i) | i <- enum 'I_3] &
    forall i, `|y i - (B *m const_mx 1) i (0 : 'I_1)| <= 2%:R * (3%:R / 20%:R) * Num.sqrt 3%:R]].
Proof.
move=> f; have [M0 [E0 H hf d0 o0]] := @ex_built F eps fexp flog feps eps0 3 (fun t => Fin (f t)) 2 3 isT.
have {}d0 : mf_deg M0 = 2%N by rewrite d0.
have [B hB] := mxfun_exists (P3_sym 2%:R) f; exists M0, B; split=> //.
pose D := [pred t : F | 1 / 2%:R <= t <= 7%:R / 2%:R].
have hg : applies_on D (mf_fun M0) f by move=> xs _; exact: hf.
have sp2 : (size ('X : {poly F}) <= mf_deg M0)%N by rewrite size_polyX d0.
have he (t : F) : D t -> `|f t - 'X.[t]| <= 3%:R / 20%:R.
  move=> /andP[t1 t2]; rewrite hornerX /f addrAC subrr add0r normrM normr_id [`|10%:R^-1|]ger0_norm ?invr_ge0 ?ler0n //.
  have -> : 3%:R / 20%:R = 3%:R / 2%:R / 10%:R :> F by field.
  rewrite ler_wpmul2r ?invr_ge0 ?ler0n // ler_norml; apply/andP; split.
    by rewrite -subr_ge0; move: t1; rewrite -subr_ge0; have -> : t - 2%:R - - (3%:R / 2%:R) = t - 1 / 2%:R by field.
  by rewrite ler_subl_addr; have -> : 3%:R / 2%:R + 2%:R = 7%:R / 2%:R :> F by field.
have hs (v : 'cV[F]_3) : signs v -> stop_at P ((vnorm v)^-1 *: v) tol3 (mf_deg M0) (mf_deg M0).
  by rewrite d0; exact: signs_stop.
have sg g : signs (head 0 (@ones_sampler F 3 1%N g).1) by move=> i; left; rewrite /= mxE.
have C0 : after_calls eps lv lp P KDense F64 M0 M0 by exists [::].
have [out [M' [E hp]]] := C97_diag_error_count tppf zq eps0 (@ref_ok F) (isT : (0 < 3)%N) (P3_sym 2%:R) H hs (@P_range F) hg hB sp2 he
  (@ones_ok F 3) sg false false false tt C0 (isT : (1 < 3)%N).
have [_ [_]] := C97_diag_error eps0 (@ref_ok F) (isT : (0 < 3)%N) (P3_sym 2%:R) H hs (@P_range F) hg hB sp2 he (@ones_ok F 3) sg C0 E.
rewrite hp => /(_ isT) [y [ey hy]]; exists out, M', y; split=> // i.
have := hy i; rewrite /avg /= !big_cons !big_nil !addr0 [(const_mx 1) i 0]mxE expr1n !divr1 mulr1.
by [].
Qed.

(* A = diag(1, 2, 3), probes e_0, e_1 and then e_2, e_2, f(t) = t^5: hutchpp gives
   1 + 32 + 243, and with full = True an exception *)
Let A3 : 'M[F]_3 := diag_mx (\row_j j.+1%:R).
Let f5 (t : F) := t ^+ 5.
Let B5 : 'M[F]_3 := diag_mx (\row_j (j.+1%:R ^+ 5)).
Definition ev (i : nat) : 'cV[F]_3 := \col_j (j == i :> nat)%:R.
Definition e_sampler : sampler F bool 3 := fun k b => (if b then [:: ev 0; ev 1] else [:: ev 2; ev 2], ~~ b).
Definition id_qr k (Y : 'M[F]_(3, k)) : 'M[F]_(3, minn 3 k) := \matrix_(i, j) (i == j :> nat)%:R.

Lemma eig_exact (v : 'cV[F]_3) (l : F) : v != 0 -> A3 *m v = l *: v ->
  stop_at A3 ((vnorm v)^-1 *: v) tol3 2 1 /\ lb A3 ((vnorm v)^-1 *: v) 1 = 0.
Proof.
move=> v0 hv; have u := start_unit v0; set q := (vnorm v)^-1 *: v in u *.
have hq : A3 *m q = l *: q by rewrite -scalemxAr hv !scalerA mulrC.
have L : lb A3 q 1 = 0.
  rewrite lbS lrE laE lb0 scale0r subr0 lq0 hq dtZr u mulr1 subrr.
  by apply/eqP; rewrite vnorm_eq0.
split=> //; split=> //; [by case=> [|[]]|right; rewrite L].
by rewrite mulr_gt0 ?sqrtr_gt0 ?ltr0n // divr_gt0 ?ltr01 // exprn_gt0 ?ltr0n.
Qed.

Example C97_hutchpp_ex : exists M0, ini 3 (fcall (fun t => Fin (f5 t))) 2 2 F64 = Ok M0 /\
  let op := mf_linop eps lv lp A3 KDense F64 in
  [/\ exists r M', ohutchpp op id_qr M0 None "reduced" e_sampler false true = Ret (r, M') /\ hret_value r = 276%:R,
      exists r M', ohutchpp op id_qr M0 None "full" e_sampler true true = Ret (r, M') /\ hret_value r = 276%:R &
      ohutchpp op id_qr M0 None "reduced" e_sampler true true = Raise ValueError].
Proof.
have [M0 [E0 H hf d0 o0]] := @ex_built F eps fexp flog feps eps0 3 (fun t => Fin (f5 t)) 2 2 isT.
have {}d0 : mf_deg M0 = 2%N by rewrite d0. have {}o0 : mf_orth M0 <= 2 by rewrite o0.
exists M0; split=> // op; have sA : A3^T = A3 by rewrite /A3 tr_diag_mx.
have C0 : after_calls eps lv lp A3 KDense F64 M0 M0 by exists [::].
have mB : is_mxfun f5 A3 B5.
  exists 1%:M, (\row_j j.+1%:R); rewrite trmx1 !mulmx1 !mul1mx; split=> //; congr diag_mx.
  by apply/rowP => j; rewrite !mxE.
have ex i : (i < 3)%N -> exact_vec A3 M0 f5 B5 (ev i).
  move=> hi; have v0 : ev i != 0.
    by apply/eqP => /colP /(_ (Ordinal hi)); rewrite !mxE eqxx => /eqP; rewrite oner_eq0.
  have hv : A3 *m ev i = i.+1%:R *: ev i.
    apply/colP => j; rewrite mul_diag_mx !mxE; case: eqP => [->//|_]; by rewrite !mulr0.
  have [h1 h2] := eig_exact v0 hv; exists 1%N; rewrite d0; split=> //; right; split=> //; by right.
have QW (Y : 'M[F]_(3, 2)) : (id_qr Y)^T *m mat_of_cols 2 [:: ev 2; ev 2] = 0.
  apply/matrixP => a b; rewrite !mxE big1 // => l _; rewrite !mxE.
  have -> : [:: ev 2; ev 2]`_b = ev 2 by case: b => [[|[|//]] hb].
  rewrite mxE; case: eqP => [e|_]; last by rewrite mul0r.
  case: eqP => [e2|_]; last by rewrite mulr0.
  by exfalso; have := ltn_ord a; move: e e2; rewrite -[minn 3 2]/2%N; clear; lia.
have vec v : hpp_vectors B5 id_qr e_sampler None true v -> exact_vec A3 M0 f5 B5 v.
  rewrite /hpp_vectors -[hpp_nb 3 None]/(2 : int) /=; case=> -[j ->].
  - suff -> : col j (mat_of_cols 2 [:: ev 0; ev 1]) = ev j by apply: ex; apply: (leq_trans (ltn_ord j)).
    by apply/colP => i; rewrite !mxE; case: j => [[|[|//]] hj] /=; rewrite mxE.
  - suff -> : col j (id_qr (B5 *m mat_of_cols 2 [:: ev 0; ev 1])) = ev j by apply: ex; apply: (leq_trans (ltn_ord j)).
    by apply/colP => i; rewrite !mxE.
  - set W := mat_of_cols _ _; suff -> : col j (W - id_qr (B5 *m mat_of_cols 2 [:: ev 0; ev 1]) *m
        ((id_qr (B5 *m mat_of_cols 2 [:: ev 0; ev 1]))^T *m W)) = ev 2 by exact: ex.
    by rewrite QW mulmx0 subr0; apply/colP => i; rewrite !mxE; case: j => [[|[|//]] hj] /=; rewrite mxE.
have val mode full : exists r, hutchpp_run id_qr (Oper B5 None) None mode e_sampler full true = Ok r /\ hret_value r = 276%:R.
  have := @hutchpp_value F bool 3 id_qr (Oper B5 None) None mode e_sampler full true isT isT (fun=> erefl).
  rewrite -[`|hpp_nb 3 None|%N]/2%N /basis /sketch /residual [(e_sampler 2%N true).2]/= [(e_sampler 2%N false).1]/= /=; set Q := id_qr _.
  rewrite -!mulmxA QW !mulmx0 !subr0 => -[r [-> hr]]; exists r; split=> //; rewrite {}hr.
  have -> : \tr (Q^T *m (B5 *m Q)) = 33%:R.
    rewrite /Q /mxtrace -[minn 3 2]/2%N !big_ord_recl !big_ord0 !mxE !sum3 !mxE !sum3 !mxE -!val_eqE /= !inordK //= -?[(1 %% 3)%N]/1%N /=.
    by rewrite !mulr0n !mulr1n; ring.
  have -> : \tr ((mat_of_cols 2 [:: ev 2; ev 2])^T *m (B5 *m mat_of_cols 2 [:: ev 2; ev 2])) = 486%:R.
    rewrite /mxtrace !big_ord_recl !big_ord0 !mxE !sum3 !mxE !sum3 !mxE /= -!val_eqE /= !inordK //= -?[(1 %% 3)%N]/1%N /=.
    by rewrite !mulr0n !mulr1n; ring.
  by field.
split.
- have := C97_hutchpp eps0 (@ref_ok F) (isT : (0 < 3)%N) sA (m := None) (mode := "reduced"%string) (full := false) H C0 o0 hf isT vec (fun h => h).
  by have [r [-> hr]] := val "reduced"%string false; case=> M' [E _]; exists r, M'.
- have := C97_hutchpp eps0 (@ref_ok F) (isT : (0 < 3)%N) sA (m := None) (mode := "full"%string) (full := true) H C0 o0 hf isT vec (fun=> isT).
  by have [r [-> hr]] := val "full"%string true; case=> M' [E _]; exists r, M'.
- have [] := C97_hutchpp_full_refuted eps0 (@ref_ok F) (isT : (0 < 3)%N) sA (m := None) (mode := "reduced"%string) H C0 o0 hf isT vec erefl.
  by [].
Qed.
End Ex97.

Print Assumptions C97_diag_error.
Print Assumptions C97_diag_error_count.
