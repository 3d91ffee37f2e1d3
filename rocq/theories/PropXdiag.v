(* Properties C42, C43 (xdiag) *)
From Coq Require Import String.
From mathcomp Require Import all_ssreflect all_algebra zify ring.
From Verif Require Import Base Spec ModelStats LemStats PropStats ModelEstimators LemEstimators
  ModelTyping ModelRandom ModelTrace LemTrace PropTrace PropUnbiased ModelHutchpp PropHutchpp ModelXtrace LemXtrace LemXrun PropXtrace.
Set Implicit Arguments.
Unset Strict Implicit.
Unset Printing Implicit Defensive.
Import Order.TTheory GRing.Theory Num.Theory.
Local Open Scope ring_scope.

Section Xdiag.
Variable F : rcfType.
Variables (G : Type) (unif : G -> rat * G) (gauss : G -> F * G).
Variable n : nat.
Variable qr : forall k, 'M[F]_(n, k) -> 'M[F]_(n, k) * 'M[F]_k.
Implicit Types (A : 'M[F]_n) (m : option int) (sample : sampler F G n) (g : G).
Local Notation xdiag_run := (@xdiag_run F G n qr).

(* min(ceil(m / 2), n); n when m is None *)
Definition budget m : nat := if m is Some x then minn ((`|x| + 1) %/ 2) n else n.

Lemma xdiag_mE m : (if m is Some x then - 1 <= x else true) ->
  xdiag_m n m = (if m is Some x then if x == - 1 then 0%N else budget m else n)%:Z.
Proof. by rewrite /xdiag_m /budget; case: m => [x|] h; [case: eqP => e|]; lia. Qed.

(* the j-th leave-one-out estimate of the i-th diagonal entry, P_j projector,
   w the j-th probe *)
Definition loo_diag A (P : 'M[F]_n) (w : 'cV[F]_n) (i : 'I_n) : F :=
  (P *m A) i i + w i 0 * ((1%:M - P) *m A *m w) i 0.

(* ---- C42 ------------------------------------------------------------------- *)
Theorem C42_leave_one_out_average A m sample g out :
  xdiag_run A m sample g = Ok out ->
  let k := size (xd_probes out) in
  let N := mat_of_cols k (xd_probes out) in
  sample_ok sample -> (0 < k)%N ->
  (let: (Q, R) := qr (A *m N) in Q^T *m Q = 1%:M /\ Q *m R = A *m N) ->
  forall P : 'I_k -> 'M[F]_n, (forall j, loo_projector (A *m N) j (P j)) ->
  xd_diag out = [seq Fin (avg [seq loo_diag A (P j) (col j N) i | j <- enum 'I_k]) | i <- enum 'I_n].
Proof.
rewrite /ModelXtrace.xdiag_run; case: ifP => // _.
case es: (sample _ g) => [vs g'].
set kk := `|xdiag_m n m|%N in es *.
case eqr: (qr _) => [Q R]; case: ifP => // /negbFE uR [<-] /= ok; have sv : size vs = kk by rewrite -(ok kk g) es.
rewrite sv eqr => kk0 [QQ QR] P hP.
rewrite eqn0Ngt kk0 /=; apply: eq_map => i; congr Fin.
have RiR : invmx R *m R = 1%:M by rewrite mulVmx.
set Nn := mat_of_cols kk vs in QR hP *.
have E (j : 'I_kk) : loo_diag A (P j) (col j Nn) i =
  (Q *m (A^T *m Q)^T) i i - (Q *m sphericalS (invmx R)) i j * (A^T *m Q *m sphericalS (invmx R)) i j
  + Nn i j * ((A *m Nn) i j - (Q *m R) i j + dt (col j (sphericalS (invmx R))) (col j R) * (Q *m sphericalS (invmx R)) i j).
  have hl := loo_ok QQ RiR j; rewrite QR in hl; rewrite (loo_unique (hP j) hl) /loo_diag.
  set s := col j (sphericalS (invmx R)); congr (_ + _).
    rewrite /loo -/s trmx_mul trmxK -!mulmxA mulmxBl mul1mx mulmxBr [LHS]mxE; congr (_ + _).
    rewrite mxE; congr (- _); rewrite -!mulmxA [Q *m (s *m _)]mulmxA mxE big_ord_recl big_ord0 addr0.
    congr (_ * _); first by rewrite !mxE; apply: eq_bigr => l _; rewrite !mxE.
    have -> : s^T *m (Q^T *m A) = (A^T *m (Q *m s))^T by rewrite !trmx_mul trmxK !mulmxA.
    by rewrite mxE /s -col_mul -col_mul mxE.
  rewrite [col j Nn i 0]mxE; congr (_ * _).
  have eL : loo Q (invmx R) j *m (A *m col j Nn) = Q *m col j R - dt s (col j R) *: (Q *m s).
    by rewrite -col_mul -QR col_mul /loo -/s -!mulmxA [Q^T *m (Q *m col j R)]mulmxA QQ mul1mx mulmxBl mul1mx -mulmxA dt_scal mulmxBr -scalemxAr.
  have addE (a b : 'cV[F]_n) : (a + b) i 0 = a i 0 + b i 0 by rewrite mxE.
  have oppE (a : 'cV[F]_n) : (- a) i 0 = - a i 0 by rewrite mxE.
  have scaE c (a : 'cV[F]_n) : (c *: a) i 0 = c * a i 0 by rewrite mxE.
  have colE (a : 'M[F]_(n, kk)) : col j a i 0 = a i j by rewrite mxE.
  by rewrite -mulmxA mulmxBl mul1mx eL opprD opprK addrA !addE oppE scaE -!col_mul !colE.
rewrite (eq_map E) /avg big_map big_enum size_map size_enum_ord /=.
have TR : (A^T *m Q)^T *m Nn = R by rewrite trmx_mul trmxK -mulmxA -QR mulmxA QQ mul1mx.
rewrite TR.
have trE k (X Y : 'M[F]_(n, k)) : diag_prod X^T Y^T i 0 = \sum_j X i j * Y i j.
  by rewrite mxE; apply: eq_bigr => l _; rewrite !mxE.
set S := sphericalS (invmx R).
rewrite (eq_bigr (fun j => (Q *m (A^T *m Q)^T) i i + (- ((Q *m S) i j * (A^T *m Q *m S) i j) + Nn i j * (A *m Nn) i j
   - Nn i j * (Q *m R) i j + Nn i j * (dt (col j S) (col j R) * (Q *m S) i j)))) => [|j _]; last first.
  rewrite -/S; move: ((Q *m (A^T *m Q)^T) i i) ((Q *m S) i j) ((A^T *m Q *m S) i j) (Nn i j) ((A *m Nn) i j) ((Q *m R) i j).
  move: (dt (col j S) (col j R)) => a b c d e f h; by ring.
rewrite big_split /= sumr_const card_ord [RHS]mulrDl -[X in _ = X / _ + _]mulr_natr mulfK ?pnatr_eq0 -?lt0n //.
congr (_ + _ / _); first by rewrite trE [RHS]mxE; apply: eq_bigr => l _; rewrite [in RHS]mxE.
rewrite !trE !big_split /= !sumrN; congr (_ + _).
rewrite -[X in diag_prod _ X]trmxK trE; apply: eq_bigr => j _.
by rewrite [X in _ * X]mxE [X in _ * X]mxE diag_prodE [X in _ * (_ * X)]mxE.
Qed.

(* with a valid QR factorisation the run fails exactly when the columns of A N
   are linearly dependent *)
Theorem C42_fails_iff_dependent A m sample g :
  0 <= xdiag_m n m ->
  let k := `|xdiag_m n m|%N in
  let N := mat_of_cols k (sample k g).1 in
  (let: (Q, R) := qr (A *m N) in Q^T *m Q = 1%:M /\ Q *m R = A *m N) ->
  (exists out, xdiag_run A m sample g = Ok out) <-> (forall x : 'cV[F]_k, A *m N *m x = 0 -> x = 0).
Proof.
move=> m0 k N; rewrite /ModelXtrace.xdiag_run ltNge m0 /= -/k /N.
case es: (sample k g) => [vs g'] /=.
case eqr: (qr _) => [Q R] [QQ QR]; rewrite -QR; case: ifP => [/negP nu|/negbFE uR]; split.
- by case.
- move=> h; case: nu; rewrite unitmxE unitfE; apply/negP => /det0P [v v0 vR].
  have RT : \det R^T = 0 by rewrite det_tr; apply/eqP/det0P; exists v.
  have /eqP/det0P [w w0 wR] := RT; case/negP: w0; rewrite -[w]trmxK -trmx0; apply/eqP; congr (_^T).
  by apply: h; rewrite -mulmxA -[R *m _]trmxK trmx_mul trmxK wR trmx0 mulmx0.
- move=> _ x h; have := congr1 (mulmx (invmx R *m Q^T)) h.
  by rewrite mulmx0 -!mulmxA [Q^T *m (Q *m _)]mulmxA QQ mul1mx mulKmx.
- by move=> _; eexists.
Qed.

(* ---- C43 ------------------------------------------------------------------- *)
Theorem C43_probe_count A m sample g out :
  xdiag_run A m sample g = Ok out -> sample_ok sample -> (if m is Some x then 0 <= x else true) ->
  [/\ size (xd_probes out) = budget m, (size (xd_probes out) <= n)%N & size (xd_diag out) = n].
Proof.
rewrite /ModelXtrace.xdiag_run => + ok hm; case: ifP => // _.
case es: (sample _ g) => [vs g'].
case eqr: (qr _) => [Q R]; case: ifP => // /negbFE uR [<-] /=.
have -> : size vs = budget m.
  have := ok `|xdiag_m n m|%N g; rewrite es /= => ->; rewrite xdiag_mE; last by case: (m) hm => //= x; lia.
  by case: m hm {es ok Q R eqr uR} => [x|] //=; case: eqP => [->|].
split=> //; last by rewrite size_map size_enum_ord.
by rewrite /budget; case: (m) => [x|] //; rewrite geq_minr.
Qed.

Theorem C43_no_probes_nan A m sample g : m = Some 0 \/ m = Some (-1) ->
  exists out, xdiag_run A m sample g = Ok out /\ xd_diag out = nseq n (NaN : xnum F).
Proof.
move=> hm; have m0 : xdiag_m n m = 0 by case: hm => ->; rewrite /xdiag_m; lia.
rewrite /ModelXtrace.xdiag_run m0 ltxx /=.
case es: (sample _ g) => [vs g']; case eqr: (qr _) => [Q R].
have -> : R \in unitmx by rewrite unitmxE det_mx00 unitr1.
eexists; split; first by [].
apply: (@eq_from_nth _ NaN) => [|i]; rewrite size_map size_enum_ord ?size_nseq // => h.
by rewrite (nth_map (Ordinal h)) ?size_enum_ord // nth_nseq h.
Qed.

Theorem C43_negative_rejected A x sample g : x <= - 2 -> xdiag_run A (Some x) sample g = Err ValueError.
Proof. by move=> hx; rewrite /ModelXtrace.xdiag_run /xdiag_m; have -> : (Num.min (x + (x %% 2)%Z) (2 * n%:Z) %/ 2)%Z < 0 by lia. Qed.
End Xdiag.

(* ---- a concrete run: N = I, A upper triangular, so Q = I and R = A ---------- *)
Section Example.
Variable F : rcfType.
Definition eye_sampler : sampler F nat 2 := fun k g => ([seq delta_mx (inord j) 0 | j <- iota 0 k], g).
Definition triA : 'M[F]_2 := \matrix_(i < 2, j < 2) (if i == 0 then (if j == 0 then 2%:R else 1) else if j == 0 then 0 else 3%:R).
Definition tri_qr k (Y : 'M[F]_(2, k)) : 'M[F]_(2, k) * 'M[F]_k := (pid_mx k, (pid_mx k)^T *m Y).

Lemma eye_N : mat_of_cols 2 (eye_sampler 2%N 0%N).1 = 1%:M :> 'M[F]_2.
Proof.
apply/matrixP => i j; rewrite mxE /=; case: j => [[|[|//]] hj] /=; rewrite !mxE eqxx andbT; congr (_%:R);
  by case: i => [[|[|//]] hi]; rewrite -val_eqE /= inordK.
Qed.

Example xdiag_runs : exists out, [/\ @xdiag_run F nat 2 tri_qr triA None eye_sampler 0%N = Ok out,
  sample_ok eye_sampler, size (xd_probes out) = 2%N &
  let k := size (xd_probes out) in let N := mat_of_cols k (xd_probes out) in
  let: (Q, R) := tri_qr (triA *m N) in Q^T *m Q = 1%:M /\ Q *m R = triA *m N].
Proof.
have ok : sample_ok eye_sampler by move=> b g; rewrite /= size_map size_iota.
have p1 : pid_mx 2 = 1%:M :> 'M[F]_2 by rewrite pid_mx_1.
rewrite /xdiag_run; set m := xdiag_m _ _; have e : `|m|%N = 2%N by rewrite /m /xdiag_m; lia.
have -> : m < 0 = false by rewrite /m /xdiag_m; lia.
rewrite e /= [mat_of_cols 2 _]eye_N mulmx1 p1 trmx1 mul1mx.
have dA : \det triA = 6%:R.
  by rewrite (expand_det_row _ 0) !big_ord_recl big_ord0 /cofactor !det_mx11 !mxE /=; ring.
have -> : triA \in unitmx by rewrite unitmxE unitfE dA pnatr_eq0.
eexists; split; [by []|exact: ok|by []|].
by rewrite /= [mat_of_cols 2 _]eye_N mulmx1 p1 !trmx1 !mul1mx.
Qed.

(* a dependent case: the zero matrix, Q = I and R = 0 *)
Example xdiag_fails : @xdiag_run F nat 2 tri_qr 0 None eye_sampler 0%N = Err LinAlgError /\
  let: (Q, R) := tri_qr (0 *m mat_of_cols 2 (eye_sampler 2%N 0%N).1) in
  Q^T *m Q = 1%:M /\ Q *m R = 0 *m mat_of_cols 2 (eye_sampler 2%N 0%N).1.
Proof.
have p1 : pid_mx 2 = 1%:M :> 'M[F]_2 by rewrite pid_mx_1.
split; last by rewrite /= p1 !mul0mx !mulmx0 trmx1 mul1mx.
rewrite /xdiag_run; set m := xdiag_m _ _; have e : `|m|%N = 2%N by rewrite /m /xdiag_m; lia.
have -> : m < 0 = false by rewrite /m /xdiag_m; lia.
by rewrite e /= mul0mx mulmx0 unitmxE det0 // unitr0.
Qed.
End Example.

(* ---- the leave-one-out estimates are unbiased -------------------------------
   The projector depends only on the other probes; averaging over every tape
   that the generator may read for the left-out probe (rademacher) gives the
   exact trace / diagonal entry. *)
Section Unbiased.
Variable F : rcfType.
Variables (X : finType) (u : X -> rat) (flip : X -> X).
Hypothesis uP : forall x, 0 <= u x < 1.
Hypothesis flipK : involutive flip.
Hypothesis flipP : forall x, (u (flip x) < 1 / 2%:R) = ~~ (u x < 1 / 2%:R).
Hypothesis X0 : (0 < #|X|)%N.
Variable gauss : seq X -> F * seq X.
Variable N : nat.
Local Notation S := (iso_sampler (tape_unif u) gauss N Rademacher).
Local Notation average := (@average F X).
Local Notation probe t := (mat_of_cols 1 (S 1%N t).1).

Let average_aff L (c : F) (f : seq X -> F) : average L (fun t => c + f t) = c + average L f.
Proof. by rewrite /average big_split /= sumr_const -[_ *+ _]mulr_natr mulrDl mulfK ?card_tape. Qed.

Let average_form L (B : 'M[F]_N) : (N <= L)%N -> average L (fun t => ((probe t)^T *m B *m probe t) 0 0) = \tr B.
Proof.
move=> h; have h1 : (1 * N <= L)%N by rewrite mul1n.
have := average_trace uP flipK flipP X0 gauss B h1; rewrite mul1r => <-.
by rewrite /average; congr (_ / _); apply: eq_bigr => t _; rewrite /mxtrace big_ord_recl big_ord0 addr0.
Qed.

Theorem C36_leave_one_out_unbiased L k (Y : 'M[F]_(N, k)) i (A P : 'M[F]_N) :
  (N <= L)%N -> loo_projector Y i P -> average L (fun t => loo_estimate A P (probe t)) = \tr A.
Proof.
move=> h hP; have PP := loo_absorb hP hP; rewrite /loo_estimate average_aff.
rewrite -[RHS](subrK (\tr (P *m A))) addrC; congr (_ + _).
have {1}-> : average L (fun t => ((probe t)^T *m (1%:M - P) *m A *m (1%:M - P) *m probe t) 0 0)
  = average L (fun t => ((probe t)^T *m ((1%:M - P) *m A *m (1%:M - P)) *m probe t) 0 0).
  by rewrite /average; congr (_ / _); apply: eq_bigr => t _; rewrite !mulmxA.
rewrite average_form // mxtrace_mulC mulmxA.
have -> : (1%:M - P) *m (1%:M - P) = 1%:M - P by rewrite mulmxBr mulmx1 mulmxBl mul1mx PP subrr subr0.
by rewrite mulmxBl mul1mx linearB.
Qed.

Theorem C42_leave_one_out_unbiased L (A P : 'M[F]_N) (a : 'I_N) :
  (N <= L)%N -> average L (fun t => loo_diag A P (probe t) a) = A a a.
Proof.
move=> h; rewrite /loo_diag average_aff -[RHS](subrK ((P *m A) a a)) addrC; congr (_ + _).
set B := (1%:M - P) *m A.
have -> : average L (fun t => probe t a 0 * (B *m probe t) a 0)
  = average L (fun t => ((probe t)^T *m (delta_mx a a *m B) *m probe t) 0 0).
  rewrite /average; congr (_ / _); apply: eq_bigr => t _.
  have -> : (probe t)^T *m (delta_mx a a *m B) *m probe t = ((probe t)^T *m delta_mx a (0 : 'I_1)) *m (delta_mx (0 : 'I_1) a *m (B *m probe t)).
    by rewrite -(mul_delta_mx (0 : 'I_1)) !mulmxA.
  rewrite [RHS]mxE big_ord_recl big_ord0 addr0; congr (_ * _).
    by rewrite -colE !mxE.
  by rewrite -rowE [RHS]mxE.
rewrite average_form // -(mul_delta_mx (0 : 'I_1)) -mulmxA mxtrace_mulC -rowE -colE /mxtrace big_ord_recl big_ord0 addr0.
by rewrite [LHS]mxE mxE /B mulmxBl mul1mx [LHS]mxE [X in _ + X]mxE.
Qed.
End Unbiased.

(* two equally likely draws, 0 (< 1/2) and 1/2, and the projector onto the first
   coordinate meet the hypotheses *)
Section UnbiasedExample.
Variable F : rcfType.
Example leave_one_out_unbiased (A : 'M[F]_2) gauss :
  average 2 (fun t => loo_estimate A (delta_mx 0 0)
    (mat_of_cols 1 (iso_sampler (tape_unif (fun b : bool => if b then 1 / 2%:R else 0)) gauss 2 Rademacher 1%N t).1)) = \tr A.
Proof.
apply: (@C36_leave_one_out_unbiased F _ _ negb _ _ _ _ gauss 2 2 2 1%:M 1) => //; try by case.
- by rewrite card_bool.
split; first by rewrite trmx_delta.
  move=> j; case: j => [[|[|//]] hj] h; last by case/eqP: h; apply/val_inj.
  by apply/matrixP => a b; rewrite -col_mul mulmx1 !mxE andbC -!val_eqE /=; case: a => [[|[|//]] ha].
exists (delta_mx 0 0); split; last by rewrite mul1mx.
by apply/rowP => j; rewrite !mxE.
Qed.
End UnbiasedExample.
Print Assumptions C42_leave_one_out_average.
Print Assumptions C42_fails_iff_dependent.
Print Assumptions C43_probe_count.
Print Assumptions C43_no_probes_nan.
Print Assumptions C43_negative_rejected.
Print Assumptions C36_leave_one_out_unbiased.
Print Assumptions C42_leave_one_out_unbiased.
