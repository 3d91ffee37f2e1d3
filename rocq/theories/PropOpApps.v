(* C96, C97: the estimators given a Toeplitz or MatrixFunction object. *)
From Coq Require Import String.
From mathcomp Require Import all_ssreflect all_algebra zify ring.
From mathcomp Require Import complex.
From Verif Require Import Base Spec ModelStats LemStats PropStats ModelEstimators LemEstimators LemEst2
  PropEstimators ModelTyping ModelRandom ModelTrace LemTrace PropTrace PropUnbiased PropDiag ModelHutchpp.
From Verif Require Import ModelXtrace LemXtrace LemXrun PropXtrace ModelLanczos LemLanczos SpecLanczos LemLanczos2 LemLanczos3 LemLanczos4
  ModelTqli ModelQuadrature ModelSpecial ModelOperators SpecTridiag SpecQuad SpecOperators LemSpectral LemQuad PropQuad
  PropOperators LemOperators LemOperators2 PropMatFun PropMatFun2 PropAccuracy ModelSLQ PropSLQ
  ModelToeplitz LemToeplitz PropToeplitz ModelOpApps LemOpApps.
Set Implicit Arguments.
Unset Strict Implicit.
Unset Printing Implicit Defensive.
Import Order.TTheory GRing.Theory Num.Theory.
Local Open Scope ring_scope.

(* ---- C96: Toeplitz ------------------------------------------------------------------ *)
Section Toep.
Variable F : rcfType.
Variable G : Type.
Variables (unif : G -> rat * G) (gauss : G -> F * G).
Variables (tppf : F -> nat -> F) (zq : F -> F).
Variable root : nat -> complex F.
Hypothesis rootP : forall n, (0 < n)%N -> n.-primitive_root (root n).
Variables (c : seq F) (r : option (seq F)) (T0 : tobj F).
Hypothesis c0 : (0 < size c)%N.
Hypothesis sr : size (odflt c r) = size c.
Hypothesis eT : t_init root c r id = Ok T0.
Local Notation N := (size c).
(* the Toeplitz matrix of the arguments and its symmetric part *)
Local Notation tmat := (toep N c (odflt c r)).
Local Notation tsym := (2%:R^-1 *: (tmat + tmat^T)).
Local Notation top := (toep_linop N root).
(* the object after any calls *)
Definition used (T : tobj F) : Prop := exists h, T = t_run root T0 h.
Implicit Types (sample : sampler F G N) (g : G).

Lemma t_run_rcons h T k : t_run root T (rcons h k) = t_call root (t_run root T h) k.
Proof. by elim: h T => //= x h IH T; rewrite IH. Qed.

Lemma used_inv T : used T -> t_inv root c (odflt c r) id T.
Proof.
case=> h ->; apply: t_runP; have [T' e' i'] := t_initP root c r id.
by move: e'; rewrite eT => -[->].
Qed.

Lemma colv_seq (v : 'cV[F]_N) : colv N (colseq v) = v.
Proof. exact: vec_colseq. Qed.

Lemma toep_acts : computes used (fun=> True) (l_mv top) (mulmx tsym).
Proof.
move=> T v u _; have i := used_inv u; case: u => h eh.
exists (t_call root T (TMatvec (colseq v))); split; last first.
  by exists (rcons h (TMatvec (colseq v))); rewrite t_run_rcons -eh.
have := @matvec_inv _ root rootP c (odflt c r) id T (colseq v) c0 (congr1 predn sr) i (size_colseq v).
rewrite /= -/(t_call root T (TMatvec (colseq v))); case E: (t_matvec root T (colseq v)) => [T' y] /= ->; congr (Ret (_, _)); last by rewrite E.
by rewrite !map_id colv_seq -[RHS](@valsK F N).
Qed.

Lemma sym_form (v : 'cV[F]_N) : quad_form (Oper tsym None) v = quad_form (Oper tmat None) v.
Proof.
have E (M : 'M[F]_N) : \sum_i v i 0 * (M *m v) i 0 = (v^T *m M *m v) 0 0.
  by rewrite -mulmxA [RHS]mxE; apply: eq_bigr => i _; rewrite [v^T _ _]mxE.
rewrite /quad_form /= !E -scalemxAr -scalemxAl mulmxDr mulmxDl mxE.
have -> : v^T *m tmat^T *m v = v^T *m tmat *m v.
  have T1 (X : 'M[F]_1) : X^T = X by apply/matrixP => i j; rewrite mxE !ord1.
  by rewrite -[RHS]T1 !trmx_mul trmxK mulmxA.
move: (v^T *m tmat *m v) => X; have -> : (X + X) 0 0 = X 0 0 + X 0 0 by rewrite mxE.
by move: (X 0 0) => x; field.
Qed.

(* hutch runs as on the explicit matrix of c and r, also if that is not symmetric: same
   probes, samples, stopping time, callbacks, result and exceptions *)
Theorem C96_hutch fuel T batch sample cr rec (full cb : bool) g : used T -> batch != 0 ->
  same_opt used (ohutch tppf zq top fuel T batch sample cr rec full cb g)
    (hutch tppf zq fuel (Oper tmat None) batch sample cr rec full cb g).
Proof.
move=> u b0; rewrite -(hutch_ext tppf zq fuel batch sample cr rec full cb g sym_form).
by apply: (@hutch_sim _ _ _ _ _ _ used top tsym (fun=> True)) => // _; exact: toep_acts.
Qed.

(* diag, hutchpp and xtrace run as on the symmetric part *)
Theorem C96_diag fuel T sample cr (full cb rec : bool) g : used T ->
  same_opt used (odiag tppf zq top fuel T sample cr full cb rec g) (diag tppf zq fuel tsym sample cr full cb rec g).
Proof. by move=> u; apply: (@diag_sim _ _ _ _ _ _ used top tsym (fun=> True)) => //; exact: toep_acts. Qed.

Theorem C96_hutchpp T (qrQ : forall k, 'M[F]_(N, k) -> 'M[F]_(N, minn N k)) m mode sample (full : bool) g :
  used T -> hpp_nb N m != 0 ->
  same used (ohutchpp top qrQ T m mode sample full g) (hutchpp_run qrQ (Oper tsym None) m mode sample full g).
Proof.
move=> u nz; apply: (@hpp_sim _ _ _ _ used top tsym (fun=> True)) => //; first exact: toep_acts.
by move=> _; right.
Qed.

Theorem C96_xtrace (qr_insert : forall k, 'M[F]_(N, k) -> 'M[F]_k -> 'cV[F]_N -> 'M[F]_(N, k + 1) * 'M[F]_(k + 1))
    fuel T batch p sample cr kw (rec full cb : bool) g :
  used T -> hutch_pdf unif gauss N p = Ok sample -> sample_ok sample ->
  same_opt used (oxtrace unif gauss tppf zq top qr_insert fuel T batch p cr kw rec full cb g)
    (xtrace unif gauss tppf zq qr_insert fuel tsym batch p cr kw rec full cb g).
Proof. by move=> u hp ok; exact: (@xtrace_sim F G unif gauss tppf zq _ _ used top tsym (fun=> True) toep_acts qr_insert fuel T batch p sample). Qed.

(* a symmetric Toeplitz matrix: r left out or equal to c *)
Theorem C96_symmetric : (forall j, (0 < j < N)%N -> (odflt c r)`_j = c`_j) -> tsym = tmat.
Proof.
move=> E; rewrite -[RHS]half_twice; congr (_ *: (_ + _)); apply/matrixP => i j; rewrite !mxE.
have hi := ltn_ord i; have hj := ltn_ord j.
by have [lij|lij|-> //] := ltngtP i j; rewrite E //; clear -lij hi hj; lia.
Qed.

(* xdiag needs A.T, which the class does not have *)
Theorem C96_xdiag_refuted T (qr : forall k, 'M[F]_(N, k) -> 'M[F]_(N, k) * 'M[F]_k) m sample g :
  used T -> 0 < xdiag_m N m -> oxdiag top qr T m sample g = Raise NotImplementedError.
Proof.
move=> u m0; rewrite /oxdiag ltNge ltW //=; set k := `|xdiag_m N m|%N.
have k0 : (0 < k)%N by rewrite absz_gt0 gt_eqF.
case: (sample k g) => vs g'; have [//|s1 [-> i1]] := matmatP toep_acts (X := mat_of_cols k vs) k0 u.
rewrite [obnd _ _]/=; case: (qr _ _) => Q R; rewrite /matmat eqn0Ngt k0 /=.
have -> : each (fun _ _ => Raise NotImplementedError) s1 [seq col j Q | j <- enum 'I_k] = Raise NotImplementedError :> outcome (seq 'cV[F]_N * _).
  by case: {Q R}k k0 Q => // k _ Q; rewrite enum_ordS.
by [].
Qed.
End Toep.

(* no column, no result: with an object the default number of columns of hutchpp fails for
   matrices smaller than 3, and batch = 0 always; on an array they do too, with other
   exceptions *)
Section Empty.
Variable F : rcfType.
Variable G : Type.
Variables (tppf : F -> nat -> F) (zq : F -> F).
Variables (N : nat) (S : Type) (A : linop F N S).
Implicit Types (sample : sampler F G N) (g : G) (s : S).
Theorem C96_small_hutchpp (qrQ : forall k, 'M[F]_(N, k) -> 'M[F]_(N, minn N k)) (B : 'M[F]_N) s mode sample (full : bool) g :
  (0 < N < 3)%N ->
  ohutchpp A qrQ s None mode sample full g = Raise ValueError /\
  hutchpp_run qrQ (Oper B None) None mode sample full g = Err ZeroDivisionError.
Proof.
move=> N3; have nb : hpp_nb N None = 0 by rewrite /hpp_nb divn_small //; case/andP: N3.
rewrite /ohutchpp /hutchpp_run nb eqn0Ngt; case/andP: N3 => -> _ /=; split.
  by case: (sample _ _) => ws g1.
by case: (sample _ _) => ws g1; case: (sample _ _) => gs g2.
Qed.
End Empty.

(* ---- C97: MatrixFunction --------------------------------------------------------------- *)
Section MF.
Variable F : rcfType.
Variable G : Type.
Variables (tppf : F -> nat -> F) (zq : F -> F).
Variables (eps : F) (fexp flog : F -> F) (feps : F).
Hypothesis eps0 : 0 <= eps.
Variable lv : seq F -> seq F -> res (seq F).
Variable lp : seq F -> seq F -> res (seq F * seq (seq F)).
Hypothesis lapack : lapack_ok lv lp.
Variable N : nat.
Variable A : 'M[F]_N.
Hypothesis n0 : (0 < N)%N.
Hypothesis sA : A^T = A.
Variables (kd : okind) (dA : dty).
Implicit Types (sample : sampler F G N) (g : G) (c : crit F) (v : 'cV[F]_N).
Local Notation tol := (Num.sqrt N%:R * (1 / 10%:R ^+ 8)).
Local Notation q0 v := ((vnorm v)^-1 *: v).
Local Notation built := (built fexp flog feps N kd).
Local Notation after_calls := (after_calls eps lv lp A kd dA).
Local Notation mop := (mf_linop eps lv lp A kd dA).
Local Notation mf_matvec := (mf_matvec eps lv lp A kd dA).

(* a vector for which deg Lanczos steps give B v exactly (see C56) *)
Definition exact_vec (M0 : mfobj F) (h : F -> F) (B : 'M[F]_N) v : Prop :=
  exists s, stop_at A (q0 v) tol (mf_deg M0) s /\
    ((s = mf_deg M0 /\ exists p : {poly F}, [/\ h =1 (fun t => p.[t]), (size p <= mf_deg M0)%N & B = polymx p A]) \/
     (s = N \/ lb A (q0 v) s = 0) /\ is_mxfun h A B).

Lemma finites_col (y : 'cV[F]_N) : finites [seq Fin (y i 0) | i <- enum 'I_N] = Some (colseq y).
Proof. by rewrite /colseq; elim: (enum _) => //= i s ->. Qed.

Lemma after_matvec M0 M x ys M' : after_calls M0 M -> mf_matvec M x = (Ret ys, M') -> after_calls M0 M'.
Proof. by case=> h C E; exists (h ++ [:: CMatvec x]); rewrite run_cat C /= E. Qed.

Lemma mf_applyE M0 M v (y : 'cV[F]_N) : after_calls M0 M -> (mf_matvec M (colseq v)).1 = Ret [seq Fin (y i 0) | i <- enum 'I_N] ->
  exists M', mf_apply eps lv lp A kd dA M v = Ret (y, M') /\ after_calls M0 M'.
Proof.
move=> C; rewrite /mf_apply; case E: (mf_matvec _ _) => [o M'] /= Eo; rewrite Eo in E *; exists M'; split; last exact: (after_matvec C E).
by rewrite /= finites_col; congr (Ret (_, _)); exact: vec_colseq.
Qed.

Lemma mf_acts M0 h B : built M0 -> applies (mf_fun M0) h ->
  computes (after_calls M0) (exact_vec M0 h B) (mf_apply eps lv lp A kd dA) (mulmx B).
Proof.
move=> H hf M v C [s [hs hv]]; apply: mf_applyE => //.
rewrite -{2}(vec_colseq v); rewrite -(vec_colseq v) in hs hv.
case: hv => [[sd [p [hp sp ->]]]|[hx mB]].
  have hf' : applies (mf_fun M0) (fun t => p.[t]) by move=> xs; rewrite hf; apply: eq_map => t; rewrite hp.
  by apply: (C56_krylov eps0 lapack n0 sA H C (size_colseq v) hf' hs); left.
exact: (C56_exact eps0 lapack n0 sA H C (size_colseq v) hf mB hs hx).
Qed.

Lemma mf_forms M0 h B : built M0 -> mf_orth M0 <= 2 -> applies (mf_fun M0) h ->
  computes (after_calls M0) (exact_vec M0 h B) (mf_form eps lv lp A kd dA) (quad_form (Oper B None)).
Proof.
move=> H O hf M v C [s [hs hv]]; rewrite /mf_form.
have E : (mf_quad eps lv lp A kd dA M [:: colseq v]).1 = Ret [:: Fin (qform B v)].
  rewrite -[in RHS](vec_colseq v); apply: (C55_columns eps0 lapack n0 sA H C O hf) => x; rewrite inE => /eqP ->.
  split; [exact: size_colseq|exists s; rewrite vec_colseq; split=> //].
  by case: hv => [[sd [p [h1 h2 h3]]]|]; [left; split=> //; exists p; split=> //; lia|right].
case EM: (mf_quad _ _ _ _ _ _ _ _) E => [o M'] /= E; rewrite {}E in EM *; exists M'; split.
  by rewrite /= [RHS]/= quad_formE.
by case: C => hh C; exists (hh ++ [:: CQuad [:: colseq v]]); rewrite run_cat C /obind /oapp /mf_run /mf_call EM.
Qed.

(* diag runs as on the matrix B = f(A) *)
Theorem C97_diag fuel M0 M sample c (full cb rec : bool) g h B :
  built M0 -> after_calls M0 M -> applies (mf_fun M0) h ->
  (forall g, exact_vec M0 h B (head 0 (sample 1%N g).1)) ->
  same_opt (after_calls M0) (odiag tppf zq mop fuel M sample c full cb rec g) (diag tppf zq fuel B sample c full cb rec g).
Proof. by move=> H C hf hs; apply: (@diag_sim _ _ _ _ _ _ (after_calls M0) mop B (exact_vec M0 h B)) => //; exact: mf_acts. Qed.

(* so does hutchpp, in both modes, if not asked for the full result in the default mode *)
Theorem C97_hutchpp M0 M (qrQ : forall k, 'M[F]_(N, k) -> 'M[F]_(N, minn N k)) m mode sample (full : bool) g h B :
  built M0 -> after_calls M0 M -> mf_orth M0 <= 2 -> applies (mf_fun M0) h -> hpp_nb N m != 0 ->
  (forall v, hpp_vectors B qrQ sample m g v -> exact_vec M0 h B v) ->
  (full -> (mode =? "full")%string) ->
  same (after_calls M0) (ohutchpp mop qrQ M m mode sample full g) (hutchpp_run qrQ (Oper B None) m mode sample full g).
Proof.
move=> H C O hf nz hv fm; apply: (@hpp_sim _ _ _ _ (after_calls M0) mop B (exact_vec M0 h B)) => //; [exact: mf_acts|exact: mf_forms|].
by move=> /fm; left.
Qed.

(* and that is an exception, whatever the vectors *)
Theorem C97_hutchpp_full_refuted M0 M (qrQ : forall k, 'M[F]_(N, k) -> 'M[F]_(N, minn N k)) m mode sample g h B :
  built M0 -> after_calls M0 M -> mf_orth M0 <= 2 -> applies (mf_fun M0) h -> 0 < hpp_nb N m ->
  (forall v, hpp_vectors B qrQ sample m g v -> exact_vec M0 h B v) -> (mode =? "full")%string = false ->
  ohutchpp mop qrQ M m mode sample true g = Raise ValueError /\
  exists x, hutchpp_run qrQ (Oper B None) m mode sample true g = Ok x.
Proof.
move=> H C O hf nb hv fm; split.
  by apply: (@hpp_concat _ _ _ _ (after_calls M0) mop B (exact_vec M0 h B)) => //; [exact: mf_acts|exact: mf_forms].
rewrite /hutchpp_run eqn0Ngt n0 ltNge ltW //=; case: (sample _ _) => ws g1; case: (sample _ _) => gs g2.
by rewrite absz_eq0 gt_eqF //; eexists.
Qed.

Lemma exact_sym M0 h B v : exact_vec M0 h B v -> B^T = B.
Proof.
have mp (k : nat) : (mxpow A k)^T = mxpow A k by exact: mxpow_tr.
case=> s [_ [[_ [p [_ _ ->]]]|[_ [U [l [_ _ ->]]]]]].
  apply/matrixP => i j; rewrite mxE /polymx !summxE; apply: eq_bigr => k _.
  by rewrite mxE [RHS]mxE -[in RHS]mp [in RHS]mxE.
by rewrite !trmx_mul trmxK tr_diag_mx mulmxA.
Qed.

(* xdiag: its A.T @ Q is A @ Q *)
Theorem C97_xdiag M0 M (qr : forall k, 'M[F]_(N, k) -> 'M[F]_(N, k) * 'M[F]_k) m sample g h B :
  built M0 -> after_calls M0 M -> applies (mf_fun M0) h -> 0 < xdiag_m N m ->
  (forall v, xdiag_vectors B qr sample m g v -> exact_vec M0 h B v) ->
  same (after_calls M0) (oxdiag mop qr M m sample g) (xdiag_run qr B m sample g).
Proof.
move=> H C hf m0 hv; apply: (@xdiag_sim _ _ _ _ (after_calls M0) mop B (exact_vec M0 h B)) => //; try exact: mf_acts.
- suff -> : B^T = B by exact: mf_acts.
  have k0 : (0 < `|xdiag_m N m|)%N by rewrite absz_gt0 gt_eqF.
  by apply: (@exact_sym M0 h B); apply: hv; left; exists (Ordinal k0).
- by rewrite gt_eqF.
Qed.

(* xtrace *)
Theorem C97_xtrace (unif : G -> rat * G) (gauss : G -> F * G) M0 M
    (qr_insert : forall k, 'M[F]_(N, k) -> 'M[F]_k -> 'cV[F]_N -> 'M[F]_(N, k + 1) * 'M[F]_(k + 1))
    fuel batch p sample cr kw (rec full cb : bool) g h B :
  built M0 -> after_calls M0 M -> applies (mf_fun M0) h ->
  hutch_pdf unif gauss N p = Ok sample -> sample_ok sample ->
  (forall v, xtrace_vectors B qr_insert batch sample rec cb g v -> exact_vec M0 h B v) ->
  same_opt (after_calls M0) (oxtrace unif gauss tppf zq mop qr_insert fuel M batch p cr kw rec full cb g)
    (xtrace unif gauss tppf zq qr_insert fuel B batch p cr kw rec full cb g).
Proof.
move=> H C hf hp ok hv.
by apply: (@xtrace_sim _ _ _ _ _ _ _ _ (after_calls M0) mop B (exact_vec M0 h B) _ _ _ _ _ _ sample) => //; exact: mf_acts.
Qed.
End MF.

Print Assumptions C96_hutch.
Print Assumptions C96_diag.
Print Assumptions C96_hutchpp.
Print Assumptions C96_xtrace.
Print Assumptions C96_symmetric.
Print Assumptions C96_xdiag_refuted.
Print Assumptions C96_small_hutchpp.
Print Assumptions C97_diag.
Print Assumptions C97_hutchpp.
Print Assumptions C97_hutchpp_full_refuted.
Print Assumptions C97_xdiag.
Print Assumptions C97_xtrace.
