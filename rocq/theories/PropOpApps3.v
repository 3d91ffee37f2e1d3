(* C97: xtrace on a MatrixFunction, an example. *)
From Coq Require Import String.
From mathcomp Require Import all_ssreflect all_algebra zify ring.
From mathcomp Require Import complex.
From Verif Require Import Base Spec ModelStats LemStats PropStats ModelEstimators LemEstimators LemEst2
  PropEstimators ModelTyping ModelRandom ModelTrace LemTrace PropTrace PropUnbiased PropDiag ModelHutchpp PropHutchpp.
From Verif Require Import ModelXtrace LemXtrace LemXrun PropXtrace ModelLanczos LemLanczos SpecLanczos LemLanczos2 LemLanczos3 LemLanczos4
  ModelTqli ModelQuadrature ModelSpecial ModelOperators SpecTridiag SpecQuad SpecOperators LemSpectral LemQuad PropQuad
  PropOperators LemOperators LemOperators2 PropMatFun PropMatFun2 PropMatFun3 PropMatFun4 PropAccuracy ModelSLQ PropSLQ PropSLQ2
  ModelToeplitz LemToeplitz PropToeplitz ModelOpApps LemOpApps PropOpApps PropOpApps2.
Set Implicit Arguments.
Unset Strict Implicit.
Unset Printing Implicit Defensive.
Import Order.TTheory GRing.Theory Num.Theory.
Local Open Scope ring_scope.


Section Ex97x.
Variable F : rcfType.
Variables (tppf : F -> nat -> F) (zq : F -> F).
Variables (eps : F) (fexp flog : F -> F) (feps : F).
Hypothesis eps0 : 0 <= eps.
Notation lv := (@ref_vals F).
Notation lp := (@ref_pairs F).
Notation ini n f := (mf_init fexp flog feps (sq_array n) f (no_kw F)).
Let A3 : 'M[F]_3 := diag_mx (\row_j j.+1%:R).
Let f5 (t : F) := t ^+ 5.
Let B5 : 'M[F]_3 := diag_mx (\row_j (j.+1%:R ^+ 5)).
Notation ev := (@ev F).
Notation gs := (@gs_insert F 3).

(* a callable that returns e_g, e_{g+1}, ... *)
Definition unit_pdf (n k g : nat) : seq (seq F) * nat :=
  ([seq [seq (j == i)%:R | j <- iota 0 n] | i <- iota g k], (g + k)%N).
Let sample : sampler F nat 3 := @mk_sampler F nat 3 unit_pdf.

Lemma unit_sample k g : sample k g = ([seq ev i | i <- iota g k], (g + k)%N).
Proof.
rewrite /sample /mk_sampler /=; congr (_, _); rewrite /to_cols -map_comp; apply: eq_map => i /=.
by apply/colP => -[[|[|[|//]]] h]; rewrite !mxE.
Qed.

(* Q holds e_0, ..., e_{k-1} *)
Definition unitq k (s : nd F * nd F * nd F) : Prop := shaped k s /\
  forall i j, (i < 3)%N -> (j < k)%N -> nd_e (fq s) i j = (i == j)%:R.

Lemma unitq_insert k s (c : F) : (k < 3)%N -> 0 < c -> unitq k s ->
  exists s', insert1 gs (c *: ev k) s = Ok s' /\ unitq (k + 1) s'.
Proof.
move=> k3 c0 [sh hq]; have [s' [e' sh']] := insert1_shape gs (c *: ev k) sh; exists s'; split=> //; split=> // i j i3 jk.
case: s sh hq e' => -[q r] ri [sq sr sc] hq; rewrite /insert1 /gs_insert sq /= in hq *.
set Q := to_mx 3 k q; have Qu : Q^T *m (c *: ev k) = 0.
  apply/colP => a; rewrite !mxE big1 // => l _; rewrite !mxE hq ?ltn_ord //.
  case: eqP => [->|_]; last by rewrite mul0r.
  by rewrite (ltn_eqF (ltn_ord a)) !mulr0.
rewrite Qu mulmx0 subr0.
have -> : dt (c *: ev k) (c *: ev k) = c ^+ 2.
  rewrite dtE (bigD1 (Ordinal k3)) //= big1 ?addr0 => [|l lk].
    by rewrite !mxE eqxx mulr1 expr2.
  by rewrite !mxE -[l == k :> nat]/(l == Ordinal k3) (negPf lk) mulr0 mul0r.
rewrite sqrtr_sqr gtr0_norm // scalerA mulVf ?(lt0r_neq0 c0) // scale1r.
set rest := bind _ _ => E; have {rest E} -> : fq s' = of_mx (row_mx Q (ev k)).
  by move: E; rewrite /rest; case: (update_trinv _ _) => //= z [<-].
rewrite /of_mx /= (insubT (fun n => n < 3)%N i3) (insubT (fun n => n < k + 1)%N jk) /=.
rewrite mxE; case: splitP => l /= el; rewrite [LHS]mxE /=.
  by rewrite -[nd_e q i l]/(nd_e (fq (q, r, ri)) i l) hq ?ltn_ord // el.
by rewrite el ord1 addn0.
Qed.

Lemma unitq_inserts (c : nat -> F) m k s : (forall i, 0 < c i) -> (k + m <= 3)%N -> unitq k s ->
  exists s', insert_cols gs [seq c i *: ev i | i <- iota k m] s = Ok s' /\ unitq (k + m) s'.
Proof.
move=> c0; elim: m k s => [|m IH] k s km h /=; first by exists s; rewrite addn0.
have [|s1 [-> h1]] := unitq_insert _ (c0 k) h; first by clear -km; lia.
by rewrite addn1 in h1; have [|s2 [e2 h2]] := IH k.+1 s1 _ h1; [clear -km; lia|exists s2; rewrite addnS].
Qed.

(* the states of the run *)
Definition ust (st : xstate F nat 3) : Prop := let k := xs_gen st in
  [/\ (k <= 3)%N, nd_c (xs_W st) = k, xs_probes st = [seq ev i | i <- iota 0 k] & unitq k (xs_fac st)].

Lemma B5_ev i : (i < 3)%N -> B5 *m ev i = (i.+1%:R ^+ 5) *: ev i.
Proof. by move=> hi; apply/colP => j; rewrite mul_diag_mx !mxE; case: eqP => [->//|_]; rewrite !mulr0. Qed.

Lemma cols_of_mat m (ws : seq 'cV[F]_3) : size ws = m -> [seq col j (mat_of_cols m ws) | j <- enum 'I_m] = ws.
Proof.
move=> sw; apply: (@eq_from_nth _ 0) => [|i]; first by rewrite size_map size_enum_ord sw.
rewrite size_map size_enum_ord => hi; rewrite (nth_map (Ordinal hi)) ?size_enum_ord //.
by apply/colP => a; rewrite !mxE nth_enum_ord.
Qed.

Lemma ust_step b r nt st st' : ust st -> xtrace_body gs B5 b sample r nt st = Ok st' -> ust st'.
Proof.
case=> k3 hW hp hq; rewrite /xtrace_body hW; set k := xs_gen st in k3 hW hp hq *; set ns := minn _ _.
have kn : (k + ns <= 3)%N by have := geq_minl (3 - k) `|b|; rewrite -/ns; clear -k3; lia.
rewrite unit_sample; set vs := [seq ev i | i <- iota k ns].
have -> : [seq col j (B5 *m mat_of_cols ns vs) | j <- enum 'I_ns] = [seq i.+1%:R ^+ 5 *: ev i | i <- iota k ns].
  have sv : size vs = ns by rewrite size_map size_iota.
  have E : mat_of_cols ns [seq i.+1%:R ^+ 5 *: ev i | i <- iota k ns] = B5 *m mat_of_cols ns vs.
    rewrite -mat_of_mul /vs -map_comp; congr mat_of_cols; apply/eq_in_map => i; rewrite mem_iota => hi /=.
    by rewrite B5_ev //; clear -hi kn; lia.
  by rewrite -E cols_of_mat // size_map size_iota.
have [|s' [-> h']] := unitq_inserts (c := fun i => i.+1%:R ^+ 5) _ kn hq; first by move=> i; rewrite exprn_gt0 ?ltr0n.
rewrite [bind _ _]/=; case: s' h' => -[q rr] ri h'; set u := mest_update _ _; case: u => est [e|] // [<-].
split=> //; first by rewrite /= hW.
by rewrite /= hp -map_cat /vs -iotaD.
Qed.

Lemma ev_exact M0 i : mf_deg M0 = 2%N -> (i < 3)%N -> exact_vec A3 M0 f5 B5 (ev i).
Proof.
move=> d0 hi; have mB : is_mxfun f5 A3 B5.
  exists 1%:M, (\row_j j.+1%:R); rewrite trmx1 !mulmx1 !mul1mx; split=> //; congr diag_mx.
  by apply/rowP => j; rewrite !mxE.
have v0 : ev i != 0.
  by apply/eqP => /colP /(_ (Ordinal hi)); rewrite !mxE eqxx => /eqP; rewrite oner_eq0.
have hv : A3 *m ev i = i.+1%:R *: ev i.
  apply/colP => j; rewrite mul_diag_mx !mxE; case: eqP => [->//|_]; by rewrite !mulr0.
have [h1 h2] := eig_exact v0 hv; exists 1%N; rewrite d0; split=> //; right; split=> //; by right.
Qed.

(* A = diag(1, 2, 3), f(t) = t^5, probes e_0, e_1, e_2 in batches of 2: xtrace returns 1 + 32 + 243 *)
Example C97_xtrace_ex : exists M0, ini 3 (fcall (fun t => Fin (f5 t))) 2 2 F64 = Ok M0 /\
  forall unif gauss, exists out M', oxtrace unif gauss tppf zq (mf_linop eps lv lp A3 KDense F64) gs 3 M0 2 (PCall unit_pdf) (CGiven (CCount F 1)) [::]
      false false true 0%N = Some (Ret (out, M')) /\
    ret_value (run_ret out) = PFloat (Fin 276%:R) /\ size (run_seen out) = 2%N.
Proof.
have [M0 [E0 H hf d0 o0]] := @ex_built F eps fexp flog feps eps0 3 (fun t => Fin (f5 t)) 2 2 isT.
have {}d0 : mf_deg M0 = 2%N by rewrite d0.
exists M0; split=> // unif gauss; have sA : A3^T = A3 by rewrite /A3 tr_diag_mx.
have C0 : after_calls eps lv lp A3 KDense F64 M0 M0 by exists [::].
have ok : sample_ok sample by move=> k g; rewrite unit_sample size_map size_iota.
have reach st : xreach B5 gs 2 sample false true 0%N st -> ust st.
  by elim=> [|s1 s2 _ h1 _]; [split=> //; split|exact: ust_step].
have vec v : xtrace_vectors B5 gs 2 sample false true 0%N v -> exact_vec A3 M0 f5 B5 v.
  case=> st [/reach [k3 _ hp [sh hq]] [|[j ->]]].
    rewrite hp => hv; have [a ha ->] := mapP hv; move: ha; rewrite mem_iota => hi; by apply: ev_exact => //; clear -hi k3; lia.
  have hj : (j < xs_gen st)%N.
    have ec : nd_c (fq (xs_fac st)) = xs_gen st by case: (xs_fac st) sh => -[q rr] ri [].
    by have := ltn_ord j; rewrite [X in (_ < X)%N]ec.
  suff -> : col j (to_mx 3 (nd_c (fq (xs_fac st))) (fq (xs_fac st))) = ev j by apply: ev_exact => //; clear -hj k3; lia.
  by apply/colP => i; rewrite !mxE hq.
have hp : hutch_pdf unif gauss 3 (PCall unit_pdf) = Ok sample by [].
have := C97_xtrace tppf zq eps0 (@ref_ok F) (isT : (0 < 3)%N) sA 3 (CGiven (CCount F 1)) [::] false H C0 hf hp ok vec.
have [out [E sp ss]] := C37_n_probes tppf zq gs B5 (CGiven (CCount F 1)) [::] false false true 0%N (conj hp ok) (isT : 1 <= (2 : int)) (isT : (ceil_div 3 2 < 3)%N).
rewrite E; case: (oxtrace _ _ _ _ _ _ _ _ _ _ _ _ _ _ _ _) => [o|//] [M' [-> _]]; exists out, M'; split=> //; split=> //.
have [st [xi hk _ [eo]]] := xtrace_inv (conj hp ok) (isT : 1 <= (2 : int)) E.
have eW : mat_of_cols 3 (run_probes out) = 1%:M.
  have h : sample 3%N 0%N = (xs_probes st, xs_gen st).
    have := xi_gen xi; rewrite hk; apply; last by rewrite unit_sample.
    by move=> i j g1; rewrite !unit_sample /= iotaD map_cat addnA.
  rewrite eo; move: h; rewrite unit_sample => -[] /= <- _.
  by apply/matrixP => -[[|[|[|//]]] h1] -[[|[|[|//]]] h2]; rewrite !mxE /= ?mxE.
have uW : B5 *m mat_of_cols 3 (run_probes out) \in unitmx.
  rewrite eW mulmx1 unitmxE det_diag unitfE; apply/prodf_neq0 => i _; by rewrite mxE expf_eq0 pnatr_eq0.
pose P (i : 'I_3) : 'M[F]_3 := 1%:M - delta_mx i i.
rewrite (C36_xtrace_leave_one_out (P := P) (conj hp ok) (isT : 1 <= (2 : int)) isT (@gs_insert_ok F 3) E uW) //.
  have T i : loo_estimate B5 (P i) (col i (mat_of_cols 3 (run_probes out))) = 276%:R.
    rewrite /loo_estimate eW /P subKr mulmxBl mul1mx linearB /=.
    have D : delta_mx i i = ev i *m (ev i)^T.
      by apply/matrixP => a b; rewrite !mxE big_ord1 !mxE -natrM mulnb.
    have cE : col i 1%:M = ev i by apply/colP => a; rewrite !mxE -val_eqE.
    rewrite cE D -!mulmxA; set e := ev i.
    have ee : e^T *m e = 1%:M.
      by rewrite [LHS]mx11_scalar -/(dt e e) dtE (bigD1 i) //= big1 ?addr0 => [|l li]; rewrite !mxE ?eqxx ?mulr1 // -[l == i :> nat]/(l == i) (negPf li) mulr0.
    rewrite ee mulmx1 [e^T *m (e *m _)]mulmxA ee mul1mx [\tr (e *m _)]mxtrace_mulC -mulmxA [\tr (e^T *m _)]trace_mx11.
    by rewrite subrK mxtrace_diag !big_ord_recl big_ord0 !mxE addr0 -!natrX -!natrD.
  by rewrite (eq_map T) /avg big_map big_enum /= sumr_const size_map size_enum_ord card_ord -[X in X / _]mulr_natr mulfK ?pnatr_eq0.
move=> i; rewrite /P eW mulmx1; split.
- by rewrite linearB /= trmx1 trmx_delta.
- move=> j ji; rewrite mulmxBl mul1mx; apply/eqP; rewrite subr_eq addrC -subr_eq subrr eq_sym; apply/eqP.
  apply/matrixP => a b; rewrite !mxE big1 // => l _; rewrite !mxE.
  by case: (eqVneq l j) => [->|]; rewrite ?mulr0n ?mulr0 // (negPf ji) andbF mul0r.
- exists (\matrix_(a, b) ((P i) a b / a.+1%:R ^+ 5)); split.
    by apply/rowP => j; rewrite !mxE !eqxx; case: (eqVneq i j) => [->|]; rewrite ?eqxx /= subrr mul0r.
  by apply/matrixP => a b; rewrite mul_diag_mx [RHS]mxE [X in X * _]mxE mxE mulrC mulfVK // expf_eq0 pnatr_eq0.
Qed.
End Ex97x.
