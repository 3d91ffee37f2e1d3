(* Properties C25, C27, C70: averages over all equally likely random tapes.

   A tape is a finite list of uniform draws.  X is the set of values one draw
   can take, u x the value in [0,1); `flip` pairs the draws below 1/2 with the
   draws from 1/2 on, one to one.  The instance at the end is rng.random(): X
   is the set of multiples of 2^-53 in [0,1). *)
From Coq Require Import String.
From mathcomp Require Import all_ssreflect all_algebra zify ring.
From Verif Require Import Base Spec ModelStats LemStats PropStats ModelEstimators LemEstimators LemEst2
  PropEstimators ModelTyping ModelRandom ModelTrace LemTrace PropTrace.
Set Implicit Arguments.
Unset Strict Implicit.
Unset Printing Implicit Defensive.
Import Order.TTheory GRing.Theory Num.Theory.
Local Open Scope ring_scope.

Section Fair.
Variable F : rcfType.
Variables (X : finType) (u : X -> rat) (flip : X -> X).
Hypothesis uP : forall x, 0 <= u x < 1.
Hypothesis flipK : involutive flip.
Hypothesis flipP : forall x, (u (flip x) < 1 / 2%:R) = ~~ (u x < 1 / 2%:R).
Hypothesis X0 : (0 < #|X|)%N.

(* reading a tape; an exhausted tape yields 0 for ever (never used below) *)
Definition tape_unif (t : seq X) : rat * seq X := if t is x :: t' then (u x, t') else (0, [::]).

(* average over all tapes of length L *)
Definition average (L : nat) (f : seq X -> F) : F :=
  (\sum_(t : L.-tuple X) f t) / #|{: L.-tuple X}|%:R.

Lemma card_tape L : #|{: L.-tuple X}|%:R != 0 :> F.
Proof. by rewrite card_tuple pnatr_eq0 -lt0n expn_gt0 X0. Qed.

Definition sgn (x : X) : F := if u x < 1 / 2%:R then -1 else 1.
Definition sgn_at (t : seq X) (p : nat) : F := (map sgn t)`_p.

Lemma sgn_flip x : sgn (flip x) = - sgn x.
Proof. by rewrite /sgn flipP; case: (u x < _); rewrite /= ?opprK. Qed.
Lemma sgn_sq x : sgn x * sgn x = 1.
Proof. by rewrite /sgn; case: ifP => _; rewrite ?mulrNN mul1r. Qed.

Section Moments.
Variable L : nat.
Definition flip_at (p : 'I_L) (t : L.-tuple X) : L.-tuple X :=
  [tuple if i == p then flip (tnth t i) else tnth t i | i < L].
Definition sg (t : L.-tuple X) (p : 'I_L) : F := sgn (tnth t p).

Lemma flip_atK p : involutive (flip_at p).
Proof.
move=> t; apply: eq_from_tnth => i; rewrite !tnth_mktuple.
by case: eqP => // _; rewrite flipK.
Qed.

Lemma sg_flip p t q : sg (flip_at p t) q = if q == p then - sg t q else sg t q.
Proof. by rewrite /sg tnth_mktuple; case: eqP => // _; rewrite sgn_flip. Qed.

Lemma odd_zero p (f : L.-tuple X -> F) : (forall t, f (flip_at p t) = - f t) -> \sum_t f t = 0.
Proof.
move=> h; have : \sum_t f t = - \sum_t f t.
  rewrite {1}(reindex_inj (inv_inj (@flip_atK p))) -sumrN /=; exact: eq_bigr.
by move/eqP; rewrite -subr_eq0 opprK -mulr2n mulrn_eq0 /= => /eqP.
Qed.

Lemma moment2 p q : \sum_t sg t p * sg t q = (p == q)%:R * #|{: L.-tuple X}|%:R.
Proof.
case: eqP => [<-|/eqP pq].
  rewrite (eq_bigr (fun=> 1)) => [|t _]; last exact: sgn_sq.
  by rewrite sumr_const mul1r.
rewrite mul0r (@odd_zero p) // => t.
by rewrite !sg_flip eqxx eq_sym (negPf pq) mulNr.
Qed.

Lemma moment4 p q r s : p != q -> r != s ->
  \sum_t (sg t p * sg t q) * (sg t r * sg t s) =
  (((p == r) && (q == s)) + ((p == s) && (q == r)))%:R * #|{: L.-tuple X}|%:R.
Proof.
move=> pq rs; have [epr|npr] := eqVneq p r.
  rewrite -epr in rs *; rewrite [p == s](negPf rs) addn0 /= -moment2; apply: eq_bigr => t _.
  by rewrite mulrACA [sg t p * _]sgn_sq mul1r.
have [eps|nps] := eqVneq p s.
  rewrite -eps in rs *; rewrite /= add0n -moment2; apply: eq_bigr => t _.
  by rewrite [sg t r * _]mulrC mulrACA [sg t p * _]sgn_sq mul1r.
rewrite /= addn0 mul0r (@odd_zero p) // => t.
by rewrite !sg_flip eqxx [q == p]eq_sym (negPf pq) [r == p]eq_sym (negPf npr) [s == p]eq_sym (negPf nps) !mulNr.
Qed.
End Moments.

(* ---- the columns drawn from a tape ----------------------------------------- *)
Variable gauss : seq X -> F * seq X.
Variable N : nat.
Local Notation S := (iso_sampler tape_unif gauss N Rademacher).

Lemma draws_tape n t : (n <= size t)%N -> draws tape_unif n t = (map u (take n t), drop n t).
Proof.
elim: n t => [|n IH] [|x t] //= h; by rewrite IH.
Qed.

Lemma fill_tape n k t : (k * n <= size t)%N ->
  fill_cols tape_unif n k t = ([seq map u (take n (drop (j * n) t)) | j <- iota 0 k], drop (k * n) t).
Proof.
elim: k t => [|k IH] t //= h; first by rewrite drop0.
rewrite draws_tape; last by apply: leq_trans h; rewrite mulSn leq_addr.
rewrite IH; last by rewrite size_drop; rewrite mulSn in h; rewrite leq_subRL // (leq_trans (leq_addr _ _) h).
rewrite drop0 (iotaDl 1 0) -map_comp drop_drop; congr (_ :: _, _); last by rewrite addnC mulSn.
by apply: eq_map => j /=; rewrite drop_drop mulSn addnC.
Qed.

Lemma tape_cols k t : (k * N <= size t)%N ->
  (S k t).1 = [seq \col_i sgn_at t (j * N + i) | j <- iota 0 k].
Proof.
move=> h; rewrite /iso_sampler /mk_sampler /iso_fill fill_tape //= /to_cols -!map_comp.
apply/eq_in_map => j; rewrite mem_iota add0n => /andP[_ hj] /=.
apply/matrixP => i z; rewrite !mxE.
have hi : (i < N)%N by [].
have le : (j * N + i < size t)%N.
  apply: leq_trans h; apply: (@leq_trans (j * N + N)); first by rewrite ltn_add2l.
  by rewrite addnC -mulSn leq_mul2r hj orbT.
have le2 : (i < size (take N (drop (j * N) t)))%N.
  by rewrite size_take size_drop; case: ifP => // _; rewrite ltn_subRL.
have [x0 _] : exists x : X, true by move: le; case: (t) => // x *; exists x.
rewrite (nth_map 0) ?size_map // (nth_map x0) // nth_take // nth_drop.
rewrite /sgn_at (nth_map x0) // rademacher_pm1 // /sgn.
by case: ifP; rewrite ?rmorphN rmorph1.
Qed.

Lemma sgn_atE L (t : L.-tuple X) (p : 'I_L) : sgn_at t p = sg t p.
Proof. by rewrite /sgn_at /sg (nth_map (tnth t p)) ?size_tuple // -tnth_nth. Qed.

(* position of entry a of probe j *)
Lemma pos_lt L m (j : 'I_m) (a : 'I_N) : (m * N <= L)%N -> (j * N + a < L)%N.
Proof.
move=> h; apply: leq_trans h; apply: (@leq_trans (j * N + N)); first by rewrite ltn_add2l.
by rewrite addnC -mulSn leq_mul2r ltn_ord orbT.
Qed.
Definition pos L m (h : (m * N <= L)%N) (j : 'I_m) (a : 'I_N) : 'I_L := Ordinal (pos_lt j a h).

Lemma pos_eq L m (h : (m * N <= L)%N) j a k b : (pos h j a == pos h k b) = (j == k) && (a == b).
Proof.
apply/eqP/andP => [|[/eqP -> /eqP ->] //]; case=> e.
have ha : (a < N)%N by []. have hb : (b < N)%N by [].
have N0 : (0 < N)%N by exact: leq_ltn_trans (leq0n _) ha.
have := congr1 (divn^~ N) e; rewrite /= !divnMDl // (divn_small ha) (divn_small hb) !addn0 => ejk.
have := congr1 (modn^~ N) e; rewrite /= !modnMDl !modn_small // => eab.
by split; apply/eqP; apply: val_inj.
Qed.

Lemma entry L m (h : (m * N <= L)%N) (t : L.-tuple X) (j : 'I_m) :
  nth 0 (S m t).1 j = \col_a sg t (pos h j a).
Proof.
rewrite tape_cols ?size_tuple // (nth_map 0%N) ?size_iota // nth_iota // add0n.
by apply/matrixP => a z; rewrite !mxE -sgn_atE.
Qed.

(* ---- C70 ------------------------------------------------------------------- *)
Theorem C70_probes_isotropic L m (j : 'I_m) (a b : 'I_N) : (m * N <= L)%N ->
  average L (fun t => let v := nth 0 (S m t).1 j in (v *m v^T) a b) = (1%:M : 'M[F]_N) a b.
Proof.
move=> h; rewrite /average (eq_bigr (fun t => sg t (pos h j a) * sg t (pos h j b))) => [|t _]; last first.
  by rewrite (entry h) mxE big_ord_recl big_ord0 !mxE addr0.
by rewrite moment2 mulfK ?card_tape // pos_eq eqxx mxE.
Qed.

(* entries have mean zero *)
Theorem C70_probes_centred L m (j : 'I_m) (a : 'I_N) : (m * N <= L)%N ->
  average L (fun t => nth 0 (S m t).1 j a 0) = 0.
Proof.
move=> h; rewrite /average (eq_bigr (fun t => sg t (pos h j a))) => [|t _]; last first.
  by rewrite (entry h) !mxE.
by rewrite (@odd_zero _ (pos h j a)) ?mul0r // => t; rewrite sg_flip eqxx.
Qed.

(* distinct probes are uncorrelated *)
Theorem C70_probes_uncorrelated L m (j k : 'I_m) (a b : 'I_N) : (m * N <= L)%N -> j != k ->
  average L (fun t => nth 0 (S m t).1 j a 0 * nth 0 (S m t).1 k b 0) = 0.
Proof.
move=> h jk; rewrite /average (eq_bigr (fun t => sg t (pos h j a) * sg t (pos h k b))) => [|t _]; last first.
  by rewrite !(entry h) !mxE.
by rewrite moment2 pos_eq (negPf jk) !mul0r.
Qed.

(* ---- C25, C27 -------------------------------------------------------------- *)
Variables (tppf : F -> nat -> F) (zq : F -> F).
Local Notation run := (run F (seq X) N).

Definition sample_mean (M : 'M[F]_N) L m (h : (m * N <= L)%N) (t : L.-tuple X) : F :=
  (\sum_(j < m) \sum_a \sum_b M a b * (sg t (pos h j a) * sg t (pos h j b))) / m%:R.

Lemma hutch_tape fuel (M : 'M[F]_N) batch n r full cb L :
  (0 < N)%N -> 0 < batch -> 0 < n -> (nbatch n (eff full cb batch) < fuel)%N ->
  let m := (nbatch n (eff full cb batch) * eff full cb batch)%N in
  forall (h : (m * N <= L)%N) (t : L.-tuple X),
  value_is (hutch tppf zq fuel (Oper M None) batch S (CCount F n) r full cb (t : seq X)) (sample_mean M h t).
Proof.
move=> N0 b0 n0 hf m h t.
have [out [e [hp hs hv]]] := @count_value F _ tppf zq N fuel (Oper M None) batch S n r full cb t
   (@iso_sample_ok _ _ _ _ _ _) N0 b0 hf n0.
exists out; split=> //; rewrite hv hp; congr (PFloat (Fin _)).
have [-> _] := iso_batches tape_unif gauss N Rademacher (eff full cb batch) (nbatch n (eff full cb batch)) t.
rewrite -/m /sample_mean /avg size_map iso_sample_ok; congr (_ / _).
rewrite big_map (big_nth 0) iso_sample_ok big_mkord; apply: eq_bigr => j _.
rewrite (entry h) /qf /= mxE exchange_big /=; apply: eq_bigr => b _; rewrite [(_ *m M) _ _]mxE big_distrl /=.
by apply: eq_bigr => a _; rewrite !mxE mulrA [sg _ _ * M _ _]mulrC.
Qed.

Lemma m_gt0 n b : (0 < b)%N -> 0 < n -> (0 < nbatch n b * b)%N.
Proof.
move=> b0 n0; have := nbatchP n (nbatch n b) b0; rewrite leqnn => h.
by rewrite -ltz_nat; apply: lt_le_trans h.
Qed.

(* hutch under CountCriterion, any reporting mode and batch size: the average
   of its value over all tapes is the trace *)
Theorem C25_hutch_unbiased fuel (M : 'M[F]_N) batch n r full cb L :
  (0 < N)%N -> 0 < batch -> 0 < n -> (nbatch n (eff full cb batch) < fuel)%N ->
  (nbatch n (eff full cb batch) * eff full cb batch * N <= L)%N ->
  exists val : seq X -> F,
   (forall t : L.-tuple X,
      value_is (hutch tppf zq fuel (Oper M None) batch S (CCount F n) r full cb (t : seq X)) (val t)) /\
   average L val = \tr M.
Proof.
move=> N0 b0 n0 hf h; have m0 := m_gt0 (eff_gt0 full cb b0) n0.
set m := (nbatch _ _ * _)%N in h m0.
exists (fun t => if insub t is Some t' then sample_mean M h t' else 0); split=> [t|].
  by rewrite valK; exact: hutch_tape.
rewrite /average (eq_bigr (sample_mean M h)) => [|t _]; last by rewrite valK.
rewrite /sample_mean -big_distrl /= exchange_big /=.
have E j : \sum_(t : L.-tuple X) \sum_a \sum_b M a b * (sg t (pos h j a) * sg t (pos h j b)) =
  \tr M * #|{: L.-tuple X}|%:R.
  rewrite exchange_big /= /mxtrace big_distrl /=; apply: eq_bigr => a _.
  rewrite exchange_big /= (bigD1 a) //= -big_distrr /= moment2 eqxx mul1r big1 ?addr0 // => b ab.
  by rewrite -big_distrr /= moment2 pos_eq eqxx eq_sym (negPf ab) mul0r mulr0.
rewrite (eq_bigr _ (fun j _ => E j)) sumr_const card_ord -[_ *+ m]mulr_natr.
by rewrite mulfK ?mulfK ?card_tape // pnatr_eq0 -lt0n.
Qed.

(* the variance of the mean of m samples of a symmetric matrix *)
Lemma sample_mean_var (M : 'M[F]_N) L m (h : (m * N <= L)%N) : (0 < m)%N -> M^T = M ->
  (\sum_(t : L.-tuple X) (sample_mean M h t - \tr M) ^+ 2) / #|{: L.-tuple X}|%:R =
     2%:R * (\sum_i \sum_j M i j ^+ 2 - \sum_i M i i ^+ 2) / m%:R.
Proof.
move=> m0 sy; have m0' : m%:R != 0 :> F by rewrite pnatr_eq0 -lt0n.
have dev t : sample_mean M h t - \tr M =
  (\sum_(j < m) \sum_a \sum_(b | b != a) M a b * (sg t (pos h j a) * sg t (pos h j b))) / m%:R.
  rewrite /sample_mean -[\tr M](mulfK m0') -mulrBl; congr (_ / _).
  rewrite mulr_natr -[m in \tr M *+ m]card_ord -sumr_const -sumrB; apply: eq_bigr => j _.
  rewrite /mxtrace -sumrB; apply: eq_bigr => a _; rewrite (bigD1 a) //= [sg _ _ * _]sgn_sq mulr1.
  by rewrite addrAC subrr add0r.
pose T := ('I_m * ('I_N * 'I_N))%type.
pose P (x : T) := x.2.2 != x.2.1.
pose c (x : T) := M x.2.1 x.2.2.
pose f t (x : T) := sg t (pos h x.1 x.2.1) * sg t (pos h x.1 x.2.2).
have flat t : \sum_(j < m) \sum_a \sum_(b | b != a) M a b * (sg t (pos h j a) * sg t (pos h j b)) =
  \sum_(x | P x) c x * f t x.
  rewrite -(pair_big_dep xpredT (fun _ y => y.2 != y.1) (fun j (y : 'I_N * 'I_N) => M y.1 y.2 * (sg t (pos h j y.1) * sg t (pos h j y.2)))) /=.
  apply: eq_bigr => j _.
  by rewrite (pair_big_dep xpredT (fun a b => b != a) (fun a b => M a b * (sg t (pos h j a) * sg t (pos h j b)))).
rewrite (eq_bigr (fun t : L.-tuple X => (\sum_(x | P x) \sum_(y | P y) c x * c y * (f t x * f t y)) / m%:R ^+ 2)) => [|t _]; last first.
  rewrite dev flat expr_div_n; congr (_ / _); rewrite expr2 big_distrl /=.
  by apply: eq_bigr => x _; rewrite big_distrr /=; apply: eq_bigr => y _; rewrite mulrACA.
rewrite -big_distrl /= exchange_big /=.
have E x : P x -> \sum_(t : L.-tuple X) \sum_(y | P y) c x * c y * (f t x * f t y) =
   2%:R * c x ^+ 2 * #|{: L.-tuple X}|%:R.
  move=> Px; rewrite exchange_big /=.
  have E4 y : P y -> \sum_(t : L.-tuple X) c x * c y * (f t x * f t y) =
     ((y == x) + (y == (x.1, (x.2.2, x.2.1))))%:R * (c x ^+ 2 * #|{: L.-tuple X}|%:R).
    move=> Py; rewrite -big_distrr /= moment4 ?pos_eq ?eqxx //= 1?eq_sym //.
    case: x y Px Py => j [a b] [k [a' b']]; rewrite /P /= => ab ab'.
    rewrite !xpair_eqE [k == j]eq_sym [a' == a]eq_sym [b' == b]eq_sym [a' == b]eq_sym [b' == a]eq_sym.
    rewrite /c /=; have [_|_] := eqVneq j k; last by rewrite /= !mul0r mulr0.
    rewrite /=; have [ea|na] := eqVneq a a'.
      rewrite -ea in ab' *; rewrite [a == b']eq_sym (negPf ab') /= andbF.
      by have [<-|_] := eqVneq b b'; rewrite /= ?mul0r ?mulr0 // !mul1r expr2.
    rewrite /= !add0n; have [ea|na'] := eqVneq a b'; last by rewrite /= andbF !mul0r mulr0.
    rewrite /=; have [eb|_] := eqVneq b a'; last by rewrite /= !mul0r mulr0.
    by rewrite !mul1r -ea -eb -{2}sy mxE expr2.
  rewrite (eq_bigr _ E4) -big_distrl /= mulrA; congr (_ * _).
  congr (_ * _).
  pose x' : T := (x.1, (x.2.2, x.2.1)).
  have nx : x' != x.
    by apply: contraNneq Px => e; rewrite -[in x.2.1]e.
  rewrite (bigD1 x) //= eqxx (bigD1 x') /=; last by rewrite nx andbT /P /= eq_sym.
  rewrite eqxx [x == _]eq_sym (negPf nx) big1 ?addr0 => [|y /andP[/andP[_ yx] yx']].
    by rewrite addn0 add0n -natrD.
  by rewrite (negPf yx) (negPf yx').
rewrite (eq_bigr _ E) -big_distrl /= mulrAC mulfK ?card_tape // -big_distrr /=.
have -> : \sum_(x | P x) c x ^+ 2 = (\sum_i \sum_j M i j ^+ 2 - \sum_i M i i ^+ 2) * m%:R.
  rewrite -(pair_big_dep xpredT (fun _ y => y.2 != y.1) (fun (j : 'I_m) (y : 'I_N * 'I_N) => M y.1 y.2 ^+ 2)) /=.
  rewrite sumr_const card_ord mulr_natr; congr (_ *+ _).
  rewrite -(pair_big_dep xpredT (fun a b => b != a) (fun a b => M a b ^+ 2)) /= -sumrB.
  by apply: eq_bigr => a _; rewrite [in RHS](bigD1 a) //= addrAC subrr add0r.
by rewrite mulrA expr2 -mulf_div mulfV // mulr1.
Qed.

(* for symmetric A the variance of the mean of m samples *)
Theorem C27_hutch_variance fuel (M : 'M[F]_N) batch n r full cb L :
  (0 < N)%N -> 0 < batch -> 0 < n -> (nbatch n (eff full cb batch) < fuel)%N ->
  (nbatch n (eff full cb batch) * eff full cb batch * N <= L)%N -> M^T = M ->
  exists val : seq X -> F,
   (forall t : L.-tuple X,
      value_is (hutch tppf zq fuel (Oper M None) batch S (CCount F n) r full cb (t : seq X)) (val t)) /\
   average L (fun t => (val t - \tr M) ^+ 2) =
     2%:R * (\sum_i \sum_j M i j ^+ 2 - \sum_i M i i ^+ 2) / (nbatch n (eff full cb batch) * eff full cb batch)%:R.
Proof.
move=> N0 b0 n0 hf h sy; have m0 := m_gt0 (eff_gt0 full cb b0) n0.
set m := (nbatch _ _ * _)%N in h m0 *.
exists (fun t => if insub t is Some t' then sample_mean M h t' else 0); split=> [t|].
  by rewrite valK; exact: hutch_tape.
rewrite -(sample_mean_var h m0 sy) /average; congr (_ / _); apply: eq_bigr => t _.
by rewrite valK.
Qed.
End Fair.

(* ---- rng.random(): the 2h multiples of 1/(2h) in [0,1); h = 2^52 ------------ *)
Section Grid.
Variable F : rcfType.
Variable h : nat.
Hypothesis h0 : (0 < h)%N.
Definition grid : Type := 'I_(h + h).
Definition grid_u (x : 'I_(h + h)) : rat := x%:R / (h + h)%:R.
Definition grid_flip (x : 'I_(h + h)) : 'I_(h + h) :=
  match split x with inl y => rshift h y | inr y => lshift h y end.

Lemma grid_flipK : involutive grid_flip.
Proof. by move=> x; rewrite /grid_flip; case: (splitP x) => y e; [rewrite -[rshift h y]/(unsplit (inr y)) unsplitK|rewrite -[lshift h y]/(unsplit (inl y)) unsplitK]; apply: val_inj. Qed.

Lemma hh0 : (0 : rat) < (h + h)%:R. Proof. by rewrite ltr0n addn_gt0 h0. Qed.

Lemma grid_uP x : 0 <= grid_u x < 1.
Proof. by rewrite /grid_u divr_ge0 ?ler0n //= ltr_pdivr_mulr ?hh0 // mul1r ltr_nat. Qed.

Lemma grid_half x : (grid_u x < 1 / 2%:R) = (x < h)%N.
Proof.
rewrite /grid_u ltr_pdivr_mulr ?hh0 //.
have -> : 1 / 2%:R * (h + h)%:R = h%:R :> rat by rewrite natrD; field.
by rewrite ltr_nat.
Qed.

Lemma grid_flipP x : (grid_u (grid_flip x) < 1 / 2%:R) = ~~ (grid_u x < 1 / 2%:R).
Proof.
rewrite !grid_half /grid_flip -leqNgt; case: (splitP x) => y /= e; rewrite e.
  by rewrite ltnNge leq_addr /= [RHS]leqNgt ltn_ord.
by rewrite leq_addr ltn_ord.
Qed.

Lemma grid_card : (0 < #|[finType of 'I_(h + h)]|)%N.
Proof. by rewrite card_ord addn_gt0 h0. Qed.

(* so C25 holds for it; likewise C27 and C70 *)
Theorem C25_hutch_unbiased_grid gauss N (tppf : F -> nat -> F) (zq : F -> F) fuel (M : 'M[F]_N) batch n r full cb L :
  (0 < N)%N -> 0 < batch -> 0 < n -> (nbatch n (eff full cb batch) < fuel)%N ->
  (nbatch n (eff full cb batch) * eff full cb batch * N <= L)%N ->
  exists val : seq 'I_(h + h) -> F,
   (forall t : L.-tuple 'I_(h + h),
      value_is (hutch tppf zq fuel (Oper M None) batch
        (iso_sampler (tape_unif grid_u) gauss N Rademacher) (CCount F n) r full cb (t : seq _)) (val t)) /\
   average L val = \tr M.
Proof.
move=> *; apply: (C25_hutch_unbiased grid_uP grid_flipK grid_flipP grid_card) => //.
Qed.
End Grid.

Lemma double_precision_grid : (0 < 2 ^ 52)%N.
Proof. by rewrite expn_gt0. Qed.

(* concrete: one draw per entry from {0, 1/2}; N = 2, A = [[1,2],[3,4]], count = 1:
   the values 10, 0, 0, 10 over the tapes average to the trace 5 *)
Example unbiased_concrete (F : rcfType) gauss (tppf : F -> nat -> F) (zq : F -> F) :
  exists val : seq 'I_2 -> F,
   (forall t : 2.-tuple 'I_2,
      value_is (hutch tppf zq 2 (Oper (exM F) None) 32
        (iso_sampler (tape_unif (@grid_u 1)) gauss 2 Rademacher) (CCount F 1) false false false (t : seq _)) (val t)) /\
   average 2 val = 5%:R.
Proof.
have [//|//|//|//|//|//|val [hv ha]] := @C25_hutch_unbiased_grid F 1 _ gauss 2 tppf zq 2 (exM F) 32 1 false false false 2.
exists val; split=> //; rewrite ha /mxtrace !big_ord_recl big_ord0 !mxE /= addr0 -natrD.
by [].
Qed.

(* and the symmetric matrix [[1,3],[3,4]] has variance 2 * (35 - 17) = 36 *)
Example variance_concrete (F : rcfType) gauss (tppf : F -> nat -> F) (zq : F -> F) :
  exists val : seq 'I_2 -> F,
   (forall t : 2.-tuple 'I_2,
      value_is (hutch tppf zq 2 (Oper (\matrix_(i, j) (if i == j then (3 * i + 1)%:R else 3%:R)) None) 32
        (iso_sampler (tape_unif (@grid_u 1)) gauss 2 Rademacher) (CCount F 1) false false false (t : seq _)) (val t)) /\
   average 2 (fun t => (val t - 5%:R) ^+ 2) = 36%:R.
Proof.
set M := (\matrix_(i, j) _ : 'M[F]_2).
have sy : M^T = M by apply/matrixP => i j; rewrite !mxE eq_sym; case: eqP => // ->.
have [val [hv ha]] := C27_hutch_variance (@grid_uP 1 erefl) (@grid_flipK 1) (@grid_flipP 1 erefl) (@grid_card 1 erefl) gauss tppf zq
  (fuel := 2) (M := M) (batch := 32) (n := 1) false (full := false) (cb := false) (L := 2) erefl erefl erefl erefl erefl sy.
have tr : \tr M = 5%:R by rewrite /mxtrace !big_ord_recl big_ord0 !mxE /= addr0 -natrD.
exists val; split=> //; rewrite -tr ha !big_ord_recl !big_ord0 !mxE /=.
by rewrite /bump -[(nbatch _ _ * _)%N]/1%N /= !muln0 !muln1 add0n -[(3 + 1)%N]/4%N; field.
Qed.

Print Assumptions C70_probes_isotropic.
Print Assumptions C70_probes_centred.
Print Assumptions C70_probes_uncorrelated.
Print Assumptions C25_hutch_unbiased.
Print Assumptions C27_hutch_variance.
Print Assumptions C25_hutch_unbiased_grid.
