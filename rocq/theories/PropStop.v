(* Property C100: the statistical stopping criteria stop hutch and diag on every
   run with +-1 probes, and how late at the latest. *)
From Coq Require Import String.
From mathcomp Require Import all_ssreflect all_algebra zify ring.
From Verif Require Import Base Spec ModelStats LemStats PropStats ModelEstimators LemEstimators LemEst2
  PropEstimators ModelTyping ModelRandom ModelTrace LemTrace PropTrace PropUnbiased PropDiag PropSLQ.
Set Implicit Arguments.
Unset Strict Implicit.
Unset Printing Implicit Defensive.
Import Order.TTheory GRing.Theory Num.Theory.
Local Open Scope ring_scope.

(* ---- averages and norms ---------------------------------------------------- *)
Section Averages.
Variable F : rcfType.
Implicit Types (s x : seq F) (t M : F).

Definition near t M s : Prop := forall y, y \in s -> `|y - t| <= M.

Lemma near_avg t M s : (0 < size s)%N -> near t M s -> `|avg s - t| <= M.
Proof.
move=> s0 h; have n0 : 0 < (size s)%:R :> F by rewrite ltr0n.
have -> : avg s - t = (\sum_(y <- s) (y - t)) / (size s)%:R.
  rewrite /avg sumrB big_const_seq count_predT iter_addr_0 -[_ *+ size s]mulr_natr mulrBl mulfK //.
  exact: lt0r_neq0.
rewrite normrM normfV (gtr0_norm n0) ler_pdivr_mulr // mulrC mulr_natl.
apply: le_trans (ler_norm_sum _ _ _) _.
rewrite -[_ *+ size s]iter_addr_0 -(count_predT s) -big_const_seq.
by rewrite big_seq_cond [X in _ <= X]big_seq_cond; apply: ler_sum => y /andP[hy _]; exact: h.
Qed.

(* appending x to s moves the mean by at most 2M|x|/(|s|+|x|) *)
Lemma avg_move t M s x : (0 < size s)%N -> (0 < size x)%N -> near t M (s ++ x) ->
  `|avg (s ++ x) - avg s| * (size s + size x)%:R <= 2%:R * M * (size x)%:R.
Proof.
move=> s0 x0 h; have n0 : 0 < (size s)%:R :> F by rewrite ltr0n.
have m0 : 0 < (size s + size x)%:R :> F by rewrite ltr0n addn_gt0 s0.
have hs : near t M s by move=> y hy; apply: h; rewrite mem_cat hy.
have hx : near t M x by move=> y hy; apply: h; rewrite mem_cat hy orbT.
have e : (avg (s ++ x) - avg s) * (size s + size x)%:R = (avg x - avg s) * (size x)%:R.
  rewrite mulrBl /avg size_cat divfK ?lt0r_neq0 // big_cat /= mulrBl divfK ?pnatr_eq0 -?lt0n //.
  set a := \sum_(y <- s) y; set b := \sum_(y <- x) y.
  by rewrite natrD mulrDr divfK ?lt0r_neq0 // opprD addrACA subrr add0r.
rewrite -[X in _ * X](gtr0_norm m0) -normrM e normrM [`|(size x)%:R|]ger0_norm ?ler0n //.
apply: ler_wpmul2r; first exact: ler0n.
have -> : avg x - avg s = (avg x - t) - (avg s - t) by ring.
apply: le_trans (ler_norm_sub _ _) _; rewrite mulr_natl mulr2n.
by apply: ler_add; exact: near_avg.
Qed.

Lemma sumsq_center s t : (0 < size s)%N ->
  \sum_(y <- s) (y - avg s) ^+ 2 = \sum_(y <- s) (y - t) ^+ 2 - (size s)%:R * (avg s - t) ^+ 2.
Proof.
move=> s0; have n0 : (size s)%:R != 0 :> F by rewrite pnatr_eq0 -lt0n.
set m := avg s; have em : \sum_(y <- s) y = m * (size s)%:R by rewrite /m /avg divfK.
have cst (c : F) : \sum_(y <- s) c = c * (size s)%:R.
  by rewrite big_const_seq count_predT iter_addr_0 mulr_natr.
have ex (c : F) : \sum_(y <- s) (y - c) ^+ 2 = \sum_(y <- s) y ^+ 2 - 2%:R * c * (m * (size s)%:R) + c ^+ 2 * (size s)%:R.
  rewrite -em -cst [2%:R * c * _]big_distrr /= -sumrB -big_split /=.
  by apply: eq_bigr => y _; ring.
by rewrite !ex; ring.
Qed.

Lemma std_err_ge0 s : 0 <= std_err s.
Proof. by rewrite /std_err mulr_ge0 ?invr_ge0 ?sqrtr_ge0. Qed.

Lemma std_err_sq s : (1 < size s)%N ->
  std_err s ^+ 2 = (\sum_(y <- s) (y - avg s) ^+ 2) / ((size s)%:R - 1) / (size s)%:R.
Proof.
move=> s1; rewrite /std_err exprMn exprVn !sqr_sqrtr ?ler0n //.
exact: sample_var_ge0.
Qed.

Lemma std_err_bound t M s : (1 < size s)%N -> near t M s ->
  std_err s ^+ 2 * ((size s)%:R - 1) <= M ^+ 2.
Proof.
move=> s1 h; have s0 : (0 < size s)%N by exact: leq_trans s1.
have n1 : 0 < (size s)%:R - 1 :> F by rewrite subr_gt0 ltr1n.
have n0 : 0 < (size s)%:R :> F by rewrite ltr0n.
rewrite std_err_sq // mulrAC divfK ?lt0r_neq0 // ler_pdivr_mulr // (sumsq_center t) //.
rewrite ler_subl_addr; apply: (@le_trans _ _ (M ^+ 2 * (size s)%:R)); last first.
  by rewrite ler_addl mulr_ge0 ?ler0n ?sqr_ge0.
rewrite mulr_natr -iter_addr_0 -(count_predT s) -big_const_seq.
rewrite big_seq_cond [X in _ <= X]big_seq_cond; apply: ler_sum => y /andP[hy _].
by rewrite -[(y - t) ^+ 2]real_normK ?num_real // ler_expn2r ?nnegrE ?normr_ge0 ?(le_trans _ (h y hy)) ?h.
Qed.

(* the three norms are monotone and homogeneous *)
Lemma spec_norm_le o Nn (f k : nat -> F) (c : F) d : @spec_norm F o = Some Nn -> 0 <= c ->
  (forall i, (i < d)%N -> `|f i| <= c * `|k i|) ->
  Nn (mkseq f d) <= c * Nn (mkseq k d).
Proof.
move=> hN c0 h1.
case: o hN => // -[<-]; rewrite /l1norm /l2norm /linfnorm /mkseq ?big_map.
- rewrite -[X in X * _](ger0_norm c0) -sqrtr_sqr -sqrtrM ?sqr_ge0 //.
  apply: ler_wsqrtr; rewrite big_distrr /= big_seq_cond [X in _ <= X]big_seq_cond.
  apply: ler_sum => i; rewrite mem_iota add0n => /andP[/andP[_ hi] _].
  by rewrite -exprMn -[f i ^+ 2]real_normK ?num_real // -[(c * _) ^+ 2]real_normK ?num_real // ler_expn2r
    ?nnegrE ?normr_ge0 // normrM (ger0_norm c0) h1.
- rewrite big_distrr /= big_seq_cond [X in _ <= X]big_seq_cond.
  by apply: ler_sum => i; rewrite mem_iota add0n => /andP[/andP[_ hi] _]; exact: h1.
- rewrite -[X in X * _](ger0_norm c0) -sqrtr_sqr -sqrtrM ?sqr_ge0 //.
  apply: ler_wsqrtr; rewrite big_distrr /= big_seq_cond [X in _ <= X]big_seq_cond.
  apply: ler_sum => i; rewrite mem_iota add0n => /andP[/andP[_ hi] _].
  by rewrite -exprMn -[f i ^+ 2]real_normK ?num_real // -[(c * _) ^+ 2]real_normK ?num_real // ler_expn2r
    ?nnegrE ?normr_ge0 // normrM (ger0_norm c0) h1.
- have : all (fun i => i < d)%N (iota 0 d) by apply/allP => i; rewrite mem_iota.
  elim: (iota 0 d) => [|i l IH] /=; first by rewrite !big_nil mulr0.
  move=> /andP[hi hl]; rewrite !big_cons (maxr_pmulr _ _ c0) le_maxl !le_maxr h1 //=.
  by rewrite IH // orbT.
Qed.

Lemma spec_norm_coord o Nn (f : nat -> F) d i : @spec_norm F o = Some Nn -> (i < d)%N -> `|f i| <= Nn (mkseq f d).
Proof.
move=> hN hi; have mi : i \in iota 0 d by rewrite mem_iota.
have ui := iota_uniq 0 d.
case: o hN => // -[<-]; rewrite /l1norm /l2norm /linfnorm /mkseq ?big_map.
- rewrite -sqrtr_sqr; apply: ler_wsqrtr; rewrite (bigD1_seq i) //= ler_addl.
  by apply: sumr_ge0 => j _; exact: sqr_ge0.
- by rewrite (bigD1_seq i) //= ler_addl; apply: sumr_ge0 => j _; exact: normr_ge0.
- rewrite -sqrtr_sqr; apply: ler_wsqrtr; rewrite (bigD1_seq i) //= ler_addl.
  by apply: sumr_ge0 => j _; exact: sqr_ge0.
- elim: (iota 0 d) mi => [//|j l IH]; rewrite inE big_cons le_maxr => /orP[/eqP -> |/IH ->]; first by rewrite lexx.
  by rewrite orbT.
Qed.

Lemma spec_norm1 o Nn (a : F) : @spec_norm F o = Some Nn -> Nn [:: a] = `|a|.
Proof.
case: o => // -[<-]; rewrite /l1norm /l2norm /linfnorm big_cons big_nil ?addr0 ?sqrtr_sqr //.
by apply/max_idPl.
Qed.
Lemma spec_normf1 o Nn (f : nat -> F) : @spec_norm F o = Some Nn -> Nn (mkseq f 1) = `|f 0%N|.
Proof. by move=> h; rewrite -(spec_norm1 _ h). Qed.
End Averages.

(* ---- hutch ------------------------------------------------------------------ *)
Section Hutch.
Variable F : rcfType.
Variables (G : Type) (tppf : F -> nat -> F) (zq : F -> F).
Variable N : nat.
Implicit Types (sample : sampler F G N) (g : G) (A : 'M[F]_N) (r full cb : bool).
Local Notation run := (run F G N).
Local Notation hutch := (@hutch F G tppf zq N).
Local Notation call := (crit_call tppf zq).

(* sum of the absolute off-diagonal entries of row i, and of the whole matrix *)
Definition roff A (i : 'I_N) : F := \sum_(j | j != i) `|A i j|.
Definition off A : F := \sum_i roff A i.

Lemma roff_ge0 A i : 0 <= roff A i.
Proof. by apply: sumr_ge0 => j _; exact: normr_ge0. Qed.
Lemma off_ge0 A : 0 <= off A.
Proof. by apply: sumr_ge0 => i _; exact: roff_ge0. Qed.

Lemma sign_sq (x : F) : x = 1 \/ x = -1 -> x * x = 1.
Proof. by case=> ->; ring. Qed.
Lemma sign_norm (x : F) : x = 1 \/ x = -1 -> `|x| = 1.
Proof. by case=> ->; rewrite ?normrN normr1. Qed.

(* a +-1 probe: coordinate i of v .* Av is A_ii up to the off-diagonal row sum *)
Lemma sign_row A v i : signs v -> `|(A *m v) i 0 * v i 0 - A i i| <= roff A i.
Proof.
move=> h; rewrite mxE (bigD1 i) //= mulrDl -mulrA (sign_sq (h i)) mulr1 addrAC subrr add0r.
rewrite normrM (sign_norm (h i)) mulr1; apply: le_trans (ler_norm_sum _ _ _) _.
by apply: ler_sum => j _; rewrite normrM (sign_norm (h j)) mulr1.
Qed.

Lemma sign_form A v : signs v -> `|(v^T *m A *m v) 0 0 - \tr A| <= off A.
Proof.
move=> h; have -> : (v^T *m A *m v) 0 0 - \tr A = \sum_i ((A *m v) i 0 * v i 0 - A i i).
  rewrite sumrB -mulmxA mxE; congr (_ - _); apply: eq_bigr => i _.
  by rewrite [v^T _ _]mxE mulrC.
apply: le_trans (ler_norm_sum _ _ _) _; apply: ler_sum => i _; exact: sign_row.
Qed.

Section Run.
Variables (A : 'M[F]_N) (sample : sampler F G N) (r full cb : bool) (batch : int) (g : G).
Hypothesis ok : sample_ok sample.
Hypothesis N0 : (0 < N)%N.
Hypothesis b0 : 0 < batch.
Hypothesis sg : forall k h v, v \in (sample k h).1 -> signs v.

Local Notation b := (eff full cb batch).
Local Notation O := (Oper A None).
Local Notation bs k := (batches sample b k g).
Local Notation test c k := (call c (mest_view (est_after r O (bs k)))).

Lemma e0 : (0 < b)%N. Proof. exact: eff_gt0. Qed.

(* a criterion that never raises and is met after K batches *)
Lemma stops_by c K fuel : (K < fuel)%N -> (forall k, is_ok (test c k)) -> test c K = Ok true ->
  exists out, hutch fuel O batch sample c r full cb g = Some (Ok out) /\
    (size (run_probes out) <= K * b)%N.
Proof.
move=> hK hok hT; case E: (hutch fuel O batch sample _ r full cb g) => [out|]; last first.
  by have := hutch_none ok N0 b0 E hK; rewrite hT.
have /= [k [hk hj ho]] := hutch_some ok N0 b0 E.
have kle : (k <= K)%N by rewrite leqNgt; apply/negP => /hj; rewrite hT.
case: out E ho => [out|e] E.
  by case=> _ eo; exists out; split=> //; rewrite eo /= size_flatten_batches // leq_mul2r kle orbT.
by move=> h; have := hok k; rewrite h.
Qed.

Lemma batches_signs k v : v \in flatten (bs k) -> signs v.
Proof.
elim: k g => [//|k IH] h; rewrite /= ; case E: (sample b h) => [vs h'] /=.
rewrite mem_cat => /orP[hv|/IH //]; apply: (sg (k := b) (h := h)).
by rewrite E.
Qed.

Lemma fed_ok k : nonempty_hist (fed O (bs k)).
Proof.
rewrite /nonempty_hist /fed all_map; apply: sub_all (all_batches k g ok e0) => vs /=.
by rewrite /rows_of size_map size_map.
Qed.

Lemma fed_run k : run_hist (@mest_update F) (mest_init F 1 true r) (fed O (bs k)) = Some (est_after r O (bs k)).
Proof. exact: est_after_run (all_batches k g ok e0). Qed.

Lemma fed_col k : col_of (all_rows (fed O (bs k))) 0 = [seq (v^T *m A *m v) 0 0 | v <- flatten (bs k)].
Proof.
rewrite all_rows_fed /col_of -map_comp; apply: eq_map => v /=.
by rewrite quad_formE.
Qed.

Lemma fed_near k : near (\tr A) (off A) (col_of (all_rows (fed O (bs k))) 0).
Proof. by rewrite fed_col => y /mapP[v hv ->]; apply: sign_form; exact: batches_signs hv. Qed.

Arguments fed_near : clear implicits.

Lemma fed_size k : size (col_of (all_rows (fed O (bs k))) 0) = (k * b)%N.
Proof. by rewrite fed_col size_map size_flatten_batches. Qed.

Lemma tol_ok rtol atol o k : o <> OrdStr -> is_ok (test (CTol rtol atol o) k).
Proof.
move=> no; set e := mest_view _.
have [x ex] : exists x, ev_delta e = D1 [:: x].
  rewrite /e /= /est_after; case: k {e} => [|k]; first by exists PInf.
  by rewrite batches_rcons /fed map_rcons last_delta_rcons; eexists.
have [y ey] : exists y, ev_estimate e = Ok [:: y].
  rewrite /e /= est_estimate; last exact: all_batches e0.
  by eexists.
by rewrite /= /tol_call ex ey /=; case: (o) no => //= _; case: ifP.
Qed.

(* the test after K >= 2 batches; the mean moved by at most 2 off / K *)
Lemma tol_test (rtol atol : F) o Nn K : @spec_norm F o = Some Nn -> (2 <= K)%N ->
  exists ch : F, [/\ test (CTol (Fin rtol) (Fin atol) o) K =
      Ok ((ch < atol) || (ch < rtol * `|avg (col_of (all_rows (fed O (bs K))) 0)|)),
    0 <= ch & ch * K%:R <= 2%:R * off A].
Proof.
move=> hN; case: K => [|[|K]] // _.
have hh := fed_ok K.+2; have hr := fed_run K.+2.
have er : fed O (bs K.+2) = rcons (fed O (bs K.+1)) (last (Arr1 [::]) (fed O (bs K.+2))).
  by rewrite batches_rcons /fed map_rcons last_rcons.
exists `|cavg (all_rows (fed O (bs K.+2))) 0 - cavg (all_rows (fed O (bs K.+1))) 0|.
rewrite normr_ge0; split=> //.
  rewrite er in hh hr; rewrite (C15_tolerance_exact tppf zq rtol atol (ltn0Sn 0) hN hh hr) -er.
  rewrite !(spec_normf1 _ hN).
  have -> : (if fed O (bs K.+1) is [::] then 0 else cavg (all_rows (fed O (bs K.+1))) 0) = cavg (all_rows (fed O (bs K.+1))) 0.
    by case E: (fed _ _) => //; have := fed_size K.+1; rewrite E /= mulSn; have := e0; lia.
  by [].
rewrite /cavg; set x := col_of (all_rows (fed O (drop K.+1 (bs K.+2)))) 0.
have ex : col_of (all_rows (fed O (bs K.+2))) 0 = col_of (all_rows (fed O (bs K.+1))) 0 ++ x.
  rewrite /x !all_rows_fed batches_rcons -cats1 drop_cat size_batches ltnn subnn drop0.
  by rewrite flatten_cat map_cat /col_of map_cat.
have sx : size x = b.
  have := congr1 size ex; rewrite size_cat !fed_size mulSn addnC => /eqP.
  by rewrite eqn_add2l => /eqP.
have nr0 := fed_near K.+2; move: nr0; rewrite ex => nr.
have := avg_move _ _ nr; rewrite fed_size sx => /(_ _ e0); rewrite muln_gt0 e0 => /(_ isT).
by rewrite -[(_ + b)%N]addnC -mulSn natrM mulrA ler_pmul2r ?ltr0n ?e0.
Qed.

(* ToleranceCriterion, absolute tolerance: at most K batches, whatever their size *)
Theorem C100_hutch_tolerance (rtol atol : F) o Nn K fuel :
  @spec_norm F o = Some Nn -> (2 <= K < fuel)%N -> 2%:R * off A < atol * K%:R ->
  exists out, hutch fuel O batch sample (CTol (Fin rtol) (Fin atol) o) r full cb g = Some (Ok out) /\
    (size (run_probes out) <= K * b)%N.
Proof.
move=> hN /andP[K2 Kf] hM; apply: stops_by => // [k|]; first by apply: tol_ok => // e; rewrite e in hN.
have [ch [-> ch0 hch]] := tol_test rtol atol hN K2.
suff -> : ch < atol by [].
rewrite -(@ltr_pmul2r _ K%:R) ?ltr0n; first exact: le_lt_trans hM.
exact: leq_trans K2.
Qed.

Lemma avg_ge k : (0 < k)%N -> \tr A - off A <= avg (col_of (all_rows (fed O (bs k))) 0).
Proof.
move=> k0; have : `|avg (col_of (all_rows (fed O (bs k))) 0) - \tr A| <= off A.
  by apply: near_avg (fed_near k); rewrite fed_size muln_gt0 k0 e0.
by rewrite ler_norml => /andP[h _]; move: h; rewrite ler_subr_addr addrC.
Qed.

(* relative tolerance: a trace that dominates the off-diagonal mass *)
Theorem C100_hutch_tolerance_relative (rtol atol : F) o Nn K fuel :
  @spec_norm F o = Some Nn -> 0 <= rtol -> (2 <= K < fuel)%N ->
  2%:R * off A < rtol * (\tr A - off A) * K%:R ->
  exists out, hutch fuel O batch sample (CTol (Fin rtol) (Fin atol) o) r full cb g = Some (Ok out) /\
    (size (run_probes out) <= K * b)%N.
Proof.
move=> hN r0 /andP[K2 Kf] hM; apply: stops_by => // [k|]; first by apply: tol_ok => // e; rewrite e in hN.
have [ch [-> ch0 hch]] := tol_test rtol atol hN K2.
suff -> : ch < rtol * `|avg (col_of (all_rows (fed O (bs K))) 0)| by rewrite orbT.
apply: (@lt_le_trans _ _ (rtol * (\tr A - off A))).
  rewrite -(@ltr_pmul2r _ K%:R) ?ltr0n; first exact: le_lt_trans hM.
  exact: leq_trans K2.
apply: ler_wpmul2l => //; apply: le_trans (ler_norm _); apply: avg_ge; exact: leq_trans K2.
Qed.

(* smallest number of batches with at least n probes *)
Lemma nbatch_ge n : (n <= nbatch n%:Z b * b)%N.
Proof. by rewrite -lez_nat nbatchP ?e0 // leqnn. Qed.

(* ConfidenceCriterion, absolute tolerance: fewer than n + batch probes *)
Theorem C100_hutch_confidence (conf rtol atol : F) n fuel :
  0 <= atol -> (30 <= n < fuel)%N -> (zq conf * off A) ^+ 2 <= atol ^+ 2 * (n%:R - 1) ->
  exists out, hutch fuel O batch sample (CConf conf (Fin atol) (Fin rtol)) r full cb g = Some (Ok out) /\
    (size (run_probes out) < n + b)%N.
Proof.
move=> a0 /andP[n30 nf] hM.
have [||| out [-> hs]] := @stops_by (CConf conf (Fin atol) (Fin rtol)) (nbatch n b) fuel.
- by apply: leq_ltn_trans nf; exact: (nbatch_small n e0).
- by move=> k; exact: conf_ok.
- set k := nbatch n b; have hk : (n <= k * b)%N := nbatch_ge n.
  have h3 : (3 <= k * b)%N by apply: leq_trans hk; apply: leq_trans n30.
  have ce := conf_error_dim1 tppf zq conf (fed_ok k) (fed_run k).
  cbv zeta in ce; rewrite fed_size in ce; move: (ce h3) => {}ce.
  rewrite /= /conf_call /= ce /=; set a := col_of _ _.
  suff -> : conf_score tppf zq conf (k * b) * std_err a <= atol by [].
  rewrite /conf_score ltnNge (leq_trans n30 hk) /=.
  have sb : std_err a ^+ 2 * ((k * b)%:R - 1) <= off A ^+ 2.
    by rewrite -(fed_size k); apply: std_err_bound (fed_near k); rewrite fed_size; apply: leq_trans h3.
  have n1 : 0 < n%:R - 1 :> F by rewrite subr_gt0 ltr1n; apply: leq_trans n30.
  have s1 : std_err a ^+ 2 * (n%:R - 1) <= off A ^+ 2.
    by apply: le_trans sb; rewrite ler_wpmul2l ?sqr_ge0 // ler_add2r ler_nat.
  apply: le_trans (ler_norm _) _; rewrite -[X in _ <= X](ger0_norm a0) -ler_sqr ?nnegrE ?normr_ge0 //.
  rewrite !real_normK ?num_real // -(@ler_pmul2r _ (n%:R - 1)) //; apply: le_trans hM.
  rewrite exprMn [X in _ <= X]exprMn -mulrA; apply: ler_wpmul2l s1; exact: sqr_ge0.
- exists out; split=> //; apply: leq_ltn_trans hs _; exact: (nbatch_bound n e0).
Qed.

(* relative tolerance: needs a trace that dominates the off-diagonal mass *)
Theorem C100_hutch_confidence_relative (conf rtol atol : F) n fuel :
  0 <= rtol -> off A < \tr A -> (3 <= n < fuel)%N ->
  off A ^+ 2 <= (rtol * (\tr A - off A)) ^+ 2 * (n%:R - 1) ->
  exists out, hutch fuel O batch sample (CConf conf (Fin atol) (Fin rtol)) r full cb g = Some (Ok out) /\
    (size (run_probes out) < n + b)%N.
Proof.
move=> r0 hd /andP[n3 nf] hM.
have [||| out [-> hs]] := @stops_by (CConf conf (Fin atol) (Fin rtol)) (nbatch n b) fuel.
- by apply: leq_ltn_trans nf; exact: (nbatch_small n e0).
- by move=> k; exact: conf_ok.
- set k := nbatch n b; have hk : (n <= k * b)%N := nbatch_ge n.
  have h3 : (3 <= k * b)%N by apply: leq_trans hk.
  set a := col_of (all_rows (fed O (bs k))) 0.
  have sa : size a = (k * b)%N by exact: fed_size.
  have av : \tr A - off A <= avg a.
    by apply: avg_ge; move: h3; case: (k).
  have m0 : 0 < \tr A - off A by rewrite subr_gt0.
  have a0 : 0 < avg a by exact: lt_le_trans av.
  rewrite (C16_confidence_exact tppf zq conf atol rtol (fed_ok k) (fed_run k)) ?fed_size //; last exact: lt0r_neq0.
  suff -> : `|std_err a / avg a| <= rtol by rewrite orbT.
  rewrite normrM normfV (gtr0_norm a0) ler_pdivr_mulr // (ger0_norm (std_err_ge0 a)).
  apply: (@le_trans _ _ (rtol * (\tr A - off A))); last by rewrite ler_wpmul2l.
  have sb : std_err a ^+ 2 * ((k * b)%:R - 1) <= off A ^+ 2.
    by rewrite -sa; apply: std_err_bound (fed_near k); rewrite sa; apply: leq_trans h3.
  have n1 : 0 < n%:R - 1 :> F by rewrite subr_gt0 ltr1n; apply: leq_trans n3.
  rewrite -ler_sqr ?nnegrE ?std_err_ge0 ?mulr_ge0 ?(ltW m0) // -(@ler_pmul2r _ (n%:R - 1)) //.
  apply: le_trans hM; apply: le_trans sb.
  by rewrite ler_wpmul2l ?sqr_ge0 // ler_add2r ler_nat.
- exists out; split=> //; apply: leq_ltn_trans hs _; exact: (nbatch_bound n e0).
Qed.
End Run.

(* ---- diag ------------------------------------------------------------------- *)
Section DiagRun.
Variables (A : 'M[F]_N) (sample : sampler F G N) (r full cb : bool) (g : G).
Hypothesis ok : sample_ok sample.
Hypothesis N0 : (0 < N)%N.
Hypothesis sg : forall k h v, v \in (sample k h).1 -> signs v.
Local Notation diag := (@diag F G tppf zq N).
Local Notation vs k := (dprobes sample k g).
Local Notation test c k := (@dtest F G tppf zq N r A sample g c k).

Lemma dstops_by c K fuel : (K < fuel)%N -> (forall k, is_ok (test c k)) -> test c K = Ok true ->
  exists out, diag fuel A sample c full cb r g = Some (Ok out) /\ (size (run_probes out) <= K)%N.
Proof.
move=> hK hok hT.
pose yes (x : res bool) := if x is Ok b then b else false.
have hex : exists k, yes (test c k) by exists K; rewrite hT.
case: (ex_minnP hex) => k hk mk.
have kK : (k <= K)%N by apply: mk; rewrite hT.
exists (drun full cb r A sample k g); rewrite /= size_dprobes //; split=> //.
apply: diag_stop => //; first exact: leq_ltn_trans hK.
  move=> j hj; have := hok j; case e: (test c j) => [[]|] // _.
  by have := mk j; rewrite e => /(_ isT); rewrite leqNgt hj.
by move: hk; case: (test c k) => [[]|].
Qed.

Lemma dprobes_signs k v : v \in vs k -> signs v.
Proof.
rewrite /dprobes; elim: k g => [//|k IH] h; rewrite /=; case E: (sample 1%N h) => [ws h'] /=.
by rewrite mem_cat => /orP[hv|/IH //]; apply: (sg (k := 1%N) (h := h)); rewrite E.
Qed.

Lemma ratio_near (ws : seq 'cV[F]_N) i : (0 < size ws)%N -> (forall v, v \in ws -> signs v) ->
  `|ratio A ws i - A i i| <= roff A i.
Proof.
move=> s0 h; have -> : ratio A ws i = avg [seq (A *m v) i 0 * v i 0 | v <- ws].
  rewrite /ratio /avg big_map size_map; congr (_ / _).
  rewrite (eq_big_seq (fun=> 1)) => [|v hv]; last by rewrite expr2 (sign_sq (h v hv i)).
  by rewrite big_const_seq count_predT iter_addr_0.
apply: near_avg; first by rewrite size_map.
by move=> y /mapP[v hv ->]; apply: sign_row; exact: h.
Qed.

Lemma drow_col k (i : 'I_N) : col_of (all_rows (dfed A (vs k))) i =
  [seq ratio A (take j.+1 (vs k)) i | j <- iota 0 (size (vs k))].
Proof.
rewrite all_rows_dfed /col_of /rows_after -map_comp; apply: eq_map => j /=.
by rewrite (nth_map i) ?size_enum_ord // nth_ord_enum.
Qed.

Lemma drow_near k (i : 'I_N) : near (A i i) (roff A i) (col_of (all_rows (dfed A (vs k))) i).
Proof.
rewrite drow_col => y /mapP[j]; rewrite mem_iota add0n => /andP[_ hj] ->.
apply: ratio_near => [|v /mem_take]; first by rewrite size_takel.
exact: dprobes_signs.
Qed.
Arguments drow_near : clear implicits.

Lemma dtol_ok rtol atol o k : o <> OrdStr -> is_ok (test (CTol rtol atol o) k).
Proof.
move=> no; rewrite /dtest; set e := mest_view _.
have h1 : is_ok (norm_d o (ev_delta e)) by apply: norm1d_ok => //; exact: dest_delta_gt0.
have h2 : is_ok (norm1d o (pyval_x N (mest_estimate (dest r A (vs k))))).
  by apply: norm1d_ok => //; exact: dest_estimate_gt0.
rewrite -[call _ e]/(tol_call rtol atol o e) /tol_call.
have -> : ev_estimate e = Ok (pyval_x N (mest_estimate (dest r A (vs k)))) by [].
case: (norm_d o _) h1 => [a|//] _; rewrite /bind; case: ifP => // _.
by case: (norm1d o _) h2.
Qed.

Lemma dfed_ok ws : nonempty_hist (dfed A ws).
Proof. by rewrite /nonempty_hist /dfed all_map; apply/allP => x _. Qed.

(* the test after K >= 2 probes: the mean of coordinate i moved by at most 2 roff_i / K and lies within
   roff_i of A_ii *)
Lemma dtol_test (rtol atol : F) o Nn K : @spec_norm F o = Some Nn -> (2 <= K)%N ->
  exists ch mu : nat -> F, [/\ test (CTol (Fin rtol) (Fin atol) o) K =
      Ok ((Nn (mkseq ch N) < atol) || (Nn (mkseq ch N) < rtol * Nn (mkseq mu N))),
    forall i : 'I_N, `|ch i| * K%:R <= 2%:R * roff A i &
    forall i : 'I_N, `|mu i - A i i| <= roff A i].
Proof.
move=> hN; case: K => [|K] // K1; rewrite ltnS in K1.
rewrite /dtest; have es := dprobes_S g ok K; set v := head 0 _ in es.
have := dfed_rcons A (vs K) v; rewrite -es; set x := Arr2 _ _ => er.
exists (fun i => cavg (all_rows (dfed A (vs K.+1))) i - cavg (all_rows (dfed A (vs K))) i).
exists (cavg (all_rows (dfed A (vs K.+1)))); split.
- have hh := dfed_ok (vs K.+1); have hr := dest_run r A (vs K.+1); rewrite er in hh hr.
  rewrite (C15_tolerance_exact tppf zq rtol atol N0 hN hh hr) -er.
  have e i : (if dfed A (vs K) is [::] then 0 else cavg (all_rows (dfed A (vs K))) i) = cavg (all_rows (dfed A (vs K))) i.
    case E: (dfed _ _) => //; have := congr1 size E; rewrite size_map size_rows_after size_dprobes //.
    by move=> K00; rewrite K00 in K1.
  by under eq_mkseq => i do rewrite e.
- move=> i; rewrite /cavg; set y := col_of (rows_of x) i.
  have ex : col_of (all_rows (dfed A (vs K.+1))) i = col_of (all_rows (dfed A (vs K))) i ++ y.
    by rewrite er all_rows_rcons /col_of map_cat.
  have nr0 := drow_near K.+1 i; move: nr0; rewrite ex => nr.
  have sK : size (col_of (all_rows (dfed A (vs K))) i) = K.
    by rewrite size_map all_rows_dfed size_rows_after size_dprobes.
  by have := avg_move _ _ nr; rewrite sK => /(_ K1 isT); rewrite [size y]/= addn1 mulr1.
- move=> i; apply: near_avg (drow_near K.+1 i).
  by rewrite size_map all_rows_dfed size_rows_after size_dprobes.
Qed.

(* ToleranceCriterion (diag's default class): at most K probes *)
Theorem C100_diag_tolerance (rtol atol : F) o Nn K fuel :
  @spec_norm F o = Some Nn -> (2 <= K < fuel)%N ->
  2%:R * Nn [seq roff A i | i <- enum 'I_N] < atol * K%:R ->
  exists out, diag fuel A sample (CTol (Fin rtol) (Fin atol) o) full cb r g = Some (Ok out) /\
    (size (run_probes out) <= K)%N.
Proof.
move=> hN /andP[K2 Kf] hM; apply: dstops_by => // [k|]; first by apply: dtol_ok => // e; rewrite e in hN.
have [ch [mu [-> hch _]]] := dtol_test rtol atol hN K2.
suff -> : Nn (mkseq ch N) < atol by [].
pose R i := nth 0 [seq roff A i | i <- enum 'I_N] i.
have eR : mkseq R N = [seq roff A i | i <- enum 'I_N].
  rewrite -[in RHS](mkseq_nth 0 [seq roff A i | i <- enum 'I_N]) size_map size_enum_ord.
  by apply: eq_mkseq.
have K0 : 0 < K%:R :> F by rewrite ltr0n; exact: leq_trans K2.
apply: (@le_lt_trans _ _ (2%:R / K%:R * Nn (mkseq R N))); last first.
  by rewrite eR mulrAC ltr_pdivr_mulr.
apply: (spec_norm_le hN) => [|i hi]; first by rewrite divr_ge0 ?ler01 ?ler0n.
pose o_i := Ordinal hi; rewrite -[i]/(nat_of_ord o_i).
have -> : R o_i = roff A o_i by rewrite /R (nth_map o_i) ?size_enum_ord // nth_ord_enum.
by rewrite (ger0_norm (roff_ge0 _ _)) mulrAC ler_pdivl_mulr.
Qed.

(* relative tolerance, diagonally dominant rows (factor th < 1): at most K probes as soon as
   2 th / K < rtol (1 - th), whatever the size of A *)
Theorem C100_diag_tolerance_relative (rtol atol th : F) o Nn K fuel :
  @spec_norm F o = Some Nn -> (2 <= K < fuel)%N -> 0 <= rtol -> 0 <= th ->
  (forall i, roff A i <= th * `|A i i|) -> (exists i, A i i != 0) ->
  2%:R * th < rtol * (1 - th) * K%:R ->
  exists out, diag fuel A sample (CTol (Fin rtol) (Fin atol) o) full cb r g = Some (Ok out) /\
    (size (run_probes out) <= K)%N.
Proof.
move=> hN /andP[K2 Kf] r0 t0 dom [i0 nz] hM; apply: dstops_by => // [k|]; first by apply: dtol_ok => // e; rewrite e in hN.
have [ch [mu [-> hch hmu]]] := dtol_test rtol atol hN K2.
suff -> : Nn (mkseq ch N) < rtol * Nn (mkseq mu N) by rewrite orbT.
pose D i := nth 0 [seq `|A i i| | i <- enum 'I_N] i.
have eD (i : 'I_N) : D i = `|A i i| by rewrite /D (nth_map i) ?size_enum_ord // nth_ord_enum.
have K0 : 0 < K%:R :> F by rewrite ltr0n; exact: leq_trans K2.
have ND : 0 < Nn (mkseq D N).
  apply: lt_le_trans (spec_norm_coord _ hN (ltn_ord i0)).
  by rewrite eD normr_id normr_gt0.
have t1 : 0 <= 1 - th.
  rewrite leNgt; apply/negP => h; move: hM; apply/negP; rewrite -leNgt.
  apply: (@le_trans _ _ 0); last by rewrite mulr_ge0 ?ler0n.
  by apply: mulr_le0_ge0; [apply: mulr_ge0_le0 => //; exact: ltW|exact: ltW].
have h1 : Nn (mkseq ch N) <= 2%:R * th / K%:R * Nn (mkseq D N).
  apply: (spec_norm_le hN) => [|i hi]; first by rewrite divr_ge0 ?mulr_ge0 ?ler0n.
  pose o_i := Ordinal hi; rewrite -[i]/(nat_of_ord o_i) eD normr_id mulrAC ler_pdivl_mulr //.
  by apply: le_trans (hch o_i) _; rewrite -mulrA ler_wpmul2l ?ler0n.
have h2 : (1 - th) * Nn (mkseq D N) <= Nn (mkseq mu N).
  have [->|tn] := eqVneq (1 - th) 0.
    by rewrite mul0r; apply: le_trans (normr_ge0 (mu i0)) (spec_norm_coord _ hN (ltn_ord i0)).
  have tp : 0 < 1 - th by rewrite lt_def tn.
  rewrite mulrC -ler_pdivl_mulr // mulrC; apply: (spec_norm_le hN) => [|i hi]; first by rewrite invr_ge0.
  pose o_i := Ordinal hi; rewrite -[i]/(nat_of_ord o_i) eD normr_id mulrC ler_pdivl_mulr // mulrBr mulr1.
  have := le_trans (hmu o_i) (dom o_i); rewrite distrC => hm; rewrite ler_subl_addr.
  rewrite addrC [_ * th]mulrC; apply: le_trans (ler_add hm (lexx _)).
  by apply: le_trans (ler_norm_add _ _); rewrite subrK.
apply: le_lt_trans h1 _; apply: (@lt_le_trans _ _ (rtol * ((1 - th) * Nn (mkseq D N)))); last exact: ler_wpmul2l.
by rewrite mulrA ltr_pmul2r // ltr_pdivr_mulr.
Qed.
End DiagRun.
End Hutch.

(* ---- without an absolute tolerance the run may never stop -------------------- *)
Section Never.
Variable F : rcfType.
Variables (tppf : F -> nat -> F) (zq : F -> F).

(* draws 3/4, 3/4, 3/4, 1/4, ...: probes (1,1), (1,-1), (1,1), ... *)
Definition u4 (n : nat) : rat * nat := ((if (n %% 4 == 3)%N then 1 / 4%:R else 3%:R / 4%:R), n.+1).
Definition g4 (n : nat) : F * nat := (0, n).
Definition swap : 'M[F]_2 := \matrix_(i, j) (i != j)%:R.
Local Notation S := (iso_sampler u4 g4 2 Rademacher).
Definition pm (n : nat) : seq F := mkseq (fun i => 2%:R * (-1) ^+ i) n.

Example u4P n : 0 <= (u4 n).1 < 1.
Proof. by rewrite /u4; case: ifP. Qed.

Lemma u4_cols k j : fill_cols u4 2 k j.*2 =
  ([seq [:: 3%:R / 4%:R; if odd (j + i) then 1 / 4%:R else 3%:R / 4%:R : rat] | i <- iota 0 k], (j + k).*2).
Proof.
elim: k j => [|k IH] j /=; first by rewrite addn0.
rewrite -[j.*2.+2]/(j.+1.*2) IH /u4 /=.
have -> : (j.*2 %% 4 == 3)%N = false by lia.
have -> : ((j.*2.+1) %% 4 == 3)%N = odd j by lia.
rewrite addn0 addSnnS; congr (_ :: _, _); rewrite (iotaDl 1 0) -map_comp.
by apply: eq_map => i; rewrite /comp add1n addnS.
Qed.

Lemma u4_forms k : [seq (v^T *m swap *m v) 0 0 | v <- (S k 0%N).1] = pm k.
Proof.
rewrite /iso_sampler /mk_sampler /iso_fill -[0%N]/(0.*2) u4_cols /= /to_cols /pm /mkseq -!map_comp.
apply: eq_map => i /=; rewrite add0n.
rewrite !mxE !big_ord_recl big_ord0 !mxE !big_ord_recl !big_ord0 !mxE /=.
rewrite !rademacher_pm1 //; last by case: odd.
rewrite -signr_odd; case: (odd i) => /=; rewrite ?rmorphN rmorph1; ring.
Qed.

Lemma pm_sum n : \sum_(x <- pm n) x = if odd n then 2%:R else 0.
Proof.
elim: n => [|n IH]; first by rewrite big_nil.
rewrite /pm mkseqS -cats1 big_cat /= IH big_seq1 -signr_odd; case: (odd n) => /=; ring.
Qed.

Lemma pm_sq n : \sum_(x <- pm n) (x - 0) ^+ 2 = 4%:R * n%:R.
Proof.
rewrite /pm big_map (eq_bigr (fun=> 4%:R)) => [|i _]; last first.
  by rewrite subr0 exprMn -exprM mulnC exprM sqrrN !expr1n mulr1 -natrX.
by rewrite big_const_seq count_predT size_iota iter_addr_0 mulr_natr.
Qed.

Lemma pm_size n : size (pm n) = n. Proof. exact: size_mkseq. Qed.

Lemma pm_err n : (1 < n)%N ->
  std_err (pm n) ^+ 2 = (4%:R - avg (pm n) ^+ 2) / (n%:R - 1).
Proof.
move=> n1; have n0 : n%:R != 0 :> F by rewrite pnatr_eq0 -lt0n (leq_trans _ n1).
have m0 : n%:R - 1 != 0 :> F by rewrite subr_eq0 pnatr_eq1 gtn_eqF.
rewrite std_err_sq ?pm_size // (sumsq_center 0) ?pm_size ?(leq_trans _ n1) // pm_sq subr0.
by field; rewrite n0 m0.
Qed.

(* ConfidenceCriterion with atol = 0, the class default: hutch never stops on this
   tape, for every confidence level, every rtol < 2 and every batch size *)
Theorem C100_confidence_without_atol_refuted fuel (conf rtol : F) batch r full cb :
  0 < batch -> 0 < zq conf -> (forall p k, 0 < tppf p k) -> rtol < 2%:R ->
  hutch tppf zq fuel (Oper swap None) batch S (CConf conf (Fin 0) (Fin rtol)) r full cb 0%N = None.
Proof.
move=> b0 z0 tp r2; have ok := @iso_sample_ok F _ u4 g4 2 Rademacher.
apply: diverge => // k; have e0 := eff_gt0 full cb b0; set b := eff full cb batch in e0 *.
have sz := size_flatten_batches b k 0%N ok.
have [lt3|ge3] := ltnP (k * b)%N 3.
  apply: C16_never_before_three => //.
  by rewrite /= all_rows_fed size_map sz.
have col : col_of (all_rows (fed (Oper swap None) (batches S b k 0%N))) 0 = pm (k * b).
  rewrite all_rows_fed /col_of -map_comp -u4_forms.
  have [-> _] := iso_batches u4 g4 2 Rademacher b k 0%N.
  by apply: eq_map => v /=; rewrite quad_formE.
have hh : nonempty_hist (fed (Oper swap None) (batches S b k 0%N)).
  rewrite /nonempty_hist /fed all_map; apply: sub_all (all_batches k 0%N ok e0) => vs /=.
  by rewrite /rows_of size_map size_map.
have hr := est_after_run r (Oper swap None) (all_batches k 0%N ok e0).
set n := (k * b)%N in ge3 col.
have n1 : (1 < n)%N by exact: leq_trans ge3.
have np : 0 < n%:R :> F by rewrite ltr0n (leq_trans _ n1).
have mp : 0 < n%:R - 1 :> F by rewrite subr_gt0 ltr1n.
have err := pm_err n1.
have sc : 0 < conf_score tppf zq conf n by rewrite /conf_score; case: ifP.
have avE : avg (pm n) = (if odd n then 2%:R else 0) / n%:R by rewrite /avg pm_sum pm_size.
have se0 : 0 < std_err (pm n).
  rewrite lt_def std_err_ge0 andbT -sqrf_eq0 err; apply: lt0r_neq0; apply: divr_gt0 => //.
  rewrite avE subr_gt0; case: (odd n); last by rewrite mul0r expr0n ltr0n.
  rewrite exprMn exprVn ltr_pdivr_mulr ?exprn_gt0 // -[2%:R ^+ 2]natrX ltr_pmulr ?ltr0n //.
  by rewrite exprn_egt1 // ltr1n.
have noabs : (conf_score tppf zq conf n * std_err (pm n) <= 0) = false.
  by apply/negbTE; rewrite -ltNge mulr_gt0.
have [od|ev] := boolP (odd n).
  have a0 : avg (pm n) != 0 by rewrite avE od mulf_neq0 ?pnatr_eq0 // invr_eq0 lt0r_neq0.
  rewrite (C16_confidence_exact tppf zq conf 0 rtol hh hr) col ?pm_size // noabs /=.
  congr Ok; apply/negbTE; rewrite -ltNge; apply: (lt_le_trans r2).
  rewrite -ler_sqr ?nnegrE ?ler0n // real_normK ?num_real // exprMn exprVn err avE od.
  have -> : (4%:R - (2%:R / n%:R) ^+ 2) / (n%:R - 1) / (2%:R / n%:R) ^+ 2 = n%:R + 1 :> F.
    by field; rewrite !lt0r_neq0.
  by rewrite -natrX -mulrSr ler_nat.
have a0 : avg (pm n) = 0 by rewrite avE (negPf ev) mul0r.
by rewrite (C16_zero_mean tppf zq conf 0 rtol hh hr) col ?pm_size // noabs.
Qed.
End Never.

(* ---- concrete cases ---------------------------------------------------------- *)
Section Ex.
Variable F : rcfType.
Variables (tppf : F -> nat -> F) (zq : F -> F).
Definition dom2 : 'M[F]_2 := \matrix_(i, j) (if i == j then 4%:R else 1).

Lemma exS_signs k h v : v \in (exS F k h).1 -> signs v.
Proof. exact: (rademacher_probe (fun g => altu_unit g)). Qed.

Lemma exM_off : off (exM F) = 5%:R.
Proof.
rewrite /off /roff; under eq_bigr => i _ do rewrite big_mkcond !big_ord_recl big_ord0.
by rewrite !big_ord_recl big_ord0 !mxE /= !normr_nat !add0r !addr0 -natrD.
Qed.
Lemma dom2_off : off dom2 = 2%:R.
Proof.
rewrite /off /roff; under eq_bigr => i _ do rewrite big_mkcond !big_ord_recl big_ord0.
by rewrite !big_ord_recl big_ord0 !mxE /= !normr1 !add0r !addr0 -(natrD _ 1 1).
Qed.
Lemma dom2_tr : \tr dom2 = 8%:R.
Proof. by rewrite /mxtrace !big_ord_recl big_ord0 !mxE /= addr0 -natrD. Qed.

(* [[1,2],[3,4]], atol 1/2, batches of 32: at most 21 batches *)
Example C100_tolerance_ex : exists out,
  hutch tppf zq 22 (Oper (exM F) None) 32 (exS F) (CTol (Fin 0) (Fin (1 / 2%:R)) Ord2) false true false 0%N = Some (Ok out) /\
  (size (run_probes out) <= 672)%N.
Proof.
have [||out h] := @C100_hutch_tolerance F nat tppf zq 2 (exM F) (exS F) false true false 32 0%N
  (exS_ok F) isT isT exS_signs 0 (1 / 2%:R) Ord2 _ 21 22 erefl; [by []| |by exists out].
rewrite exM_off; have -> : 1 / 2%:R * 21%:R = 10%:R + 2%:R^-1 :> F by field.
by rewrite -natrM ltr_addl invr_gt0 ltr0n.
Qed.

(* same matrix, a confidence level with z = 2, atol 1: fewer than 102 probes *)
Example C100_confidence_ex conf : zq conf = 2%:R -> exists out,
  hutch tppf zq 102 (Oper (exM F) None) 1 (exS F) (CConf conf (Fin 1) (Fin 0)) false false false 0%N = Some (Ok out) /\
  (size (run_probes out) < 102)%N.
Proof.
move=> hz; have [|||out h] := @C100_hutch_confidence F nat tppf zq 2 (exM F) (exS F) false false false 1 0%N
  (exS_ok F) isT isT exS_signs conf 0 1 101 102; [exact: ler01|by []| |by exists out].
by rewrite exM_off hz -natrM expr1n mul1r -natrX -(@natrB _ 101 1) // ler_nat.
Qed.

(* [[4,1],[1,4]]: the defaults rtol = 1/100, atol = 0 of ConfidenceCriterion stop within 1200 probes *)
Example C100_confidence_relative_ex conf : exists out,
  hutch tppf zq 1200 (Oper dom2 None) 1 (exS F) (CConf conf (Fin 0) (Fin (1 / 100%:R))) false false false 0%N = Some (Ok out) /\
  (size (run_probes out) < 1200)%N.
Proof.
have [||||out [e h]] := @C100_hutch_confidence_relative F nat tppf zq 2 dom2 (exS F) false false false 1 0%N
  (exS_ok F) isT isT exS_signs conf (1 / 100%:R) 0 1199 1200; rewrite ?dom2_off ?dom2_tr ?ltr_nat //.
- by rewrite divr_ge0 ?ler01 ?ler0n.
- have e6 : 8%:R - 2%:R = 6%:R :> F by rewrite -natrB.
  have e8 : 1199%:R - 1 = 1198%:R :> F by rewrite -(@natrB _ 1199 1).
  have -> : (1 / 100%:R * (8%:R - 2%:R)) ^+ 2 * (1199%:R - 1) = 6%:R ^+ 2 * 1198%:R / 100%:R ^+ 2 :> F.
    by rewrite e6 e8; move: (1198%:R : F) => x; field.
  by rewrite ler_pdivl_mulr ?exprn_gt0 ?ltr0n // -!natrX -!natrM ler_nat.
- by exists out.
Qed.

(* and diag with its default rtol stops within 67 probes *)
Example C100_diag_relative_ex : exists out,
  diag tppf zq 68 dom2 (exS F) (CTol (Fin (1 / 100%:R)) (Fin 0) Ord2) false false false 0%N = Some (Ok out) /\
  (size (run_probes out) <= 67)%N.
Proof.
have [||||||out h] := @C100_diag_tolerance_relative F nat tppf zq 2 dom2 (exS F) false false false 0%N
  (exS_ok F) isT exS_signs (1 / 100%:R) 0 (1 / 4%:R) Ord2 _ 67 68 erefl; last by exists out.
- by [].
- by rewrite divr_ge0 ?ler01 ?ler0n.
- by rewrite divr_ge0 ?ler01 ?ler0n.
- move=> i; rewrite /roff big_mkcond !big_ord_recl big_ord0 !mxE eqxx.
  rewrite normr_nat divfK ?pnatr_eq0 //.
  by case: i => -[|[|//]] hi /=; rewrite !normr1 ?addr0 ?add0r.
- by exists 0; rewrite mxE eqxx pnatr_eq0.
- have -> : 2%:R * (1 / 4%:R) = 200%:R / 400%:R :> F by field.
  have -> : 1 / 100%:R * (1 - 1 / 4%:R) * 67%:R = 201%:R / 400%:R :> F by field.
  by rewrite ltr_pmul2r ?invr_gt0 ?ltr0n // ltr_nat.
Qed.

Example C100_diag_tolerance_ex : exists out,
  diag tppf zq 14 dom2 (exS F) (CTol (Fin 0) (Fin (1 / 3%:R)) Ord1) false false false 0%N = Some (Ok out) /\
  (size (run_probes out) <= 13)%N.
Proof.
have [||out h] := @C100_diag_tolerance F nat tppf zq 2 dom2 (exS F) false false false 0%N
  (exS_ok F) isT exS_signs 0 (1 / 3%:R) Ord1 _ 13 14 erefl; [by []| |by exists out].
have -> : l1norm [seq roff dom2 i | i <- enum 'I_2] = 2%:R.
  rewrite /l1norm big_map big_enum /= -dom2_off; apply: eq_bigr => i _.
  by rewrite ger0_norm // roff_ge0.
have -> : 1 / 3%:R * 13%:R = 4%:R + 3%:R^-1 :> F by field.
by rewrite -natrM ltr_addl invr_gt0 ltr0n.
Qed.

(* the hypotheses of the non-termination theorem: z = 2, t = 2, the default rtol *)
Example C100_never_ex fuel : hutch (fun _ _ => 2%:R) (fun _ => 2%:R) fuel (Oper (swap F) None) 32
  (iso_sampler u4 (g4 F) 2 Rademacher) (CConf (19%:R / 20%:R) (Fin 0) (Fin (1 / 100%:R))) false false false 0%N = None.
Proof.
apply: C100_confidence_without_atol_refuted => // [|_ _|]; rewrite ?ltr0n //.
by rewrite ltr_pdivr_mulr ?ltr0n // -natrM -[1]/(1%:R) ltr_nat.
Qed.
End Ex.

Print Assumptions C100_hutch_tolerance.
Print Assumptions C100_hutch_tolerance_relative.
Print Assumptions C100_hutch_confidence.
Print Assumptions C100_hutch_confidence_relative.
Print Assumptions C100_diag_tolerance.
Print Assumptions C100_diag_tolerance_relative.
Print Assumptions C100_confidence_without_atol_refuted.
