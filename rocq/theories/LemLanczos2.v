(* The run of the kernel in terms of the textbook recurrence. *)
From mathcomp Require Import all_ssreflect all_algebra zify ring.
From Verif Require Import Base ModelXtrace LemXtrace ModelLanczos LemLanczos SpecLanczos.
Set Implicit Arguments.
Unset Strict Implicit.
Unset Printing Implicit Defensive.
Import Order.TTheory GRing.Theory Num.Theory.
Local Open Scope ring_scope.

Section Rec.
Variable F : rcfType.
Variable n : nat.
Implicit Types (x y v : 'cV[F]_n) (V : nat -> 'cV[F]_n).

Lemma innerE x y : inner x y = dt x y. Proof. by rewrite dtE. Qed.

Lemma vnormE x : vnorm x = Num.sqrt (dt x x). Proof. by rewrite /vnorm innerE. Qed.

Lemma dtge0 x : 0 <= dt x x.
Proof. by rewrite dtE sumr_ge0 // => i _; rewrite -expr2 sqr_ge0. Qed.

Lemma dt_eq0P x : dt x x = 0 -> x = 0.
Proof.
rewrite dtE => h; apply/colP => i; rewrite mxE; apply/eqP.
have : x i 0 * x i 0 = 0.
  by apply: (@psumr_eq0P _ _ xpredT (fun i => x i 0 * x i 0)) => // j _; rewrite -expr2 sqr_ge0.
by move/eqP; rewrite mulf_eq0 orbb.
Qed.

Lemma dt0r x : dt x 0 = 0. Proof. by rewrite dtE big1 // => i _; rewrite mxE mulr0. Qed.
Lemma dt0l x : dt 0 x = 0. Proof. by rewrite dtC dt0r. Qed.

Lemma vnorm_ge0 x : 0 <= vnorm x. Proof. exact: sqrtr_ge0. Qed.
Lemma vnorm_sq x : vnorm x ^+ 2 = dt x x. Proof. by rewrite vnormE sqr_sqrtr // dtge0. Qed.
Lemma vnorm_eq0 x : (vnorm x == 0) = (x == 0).
Proof.
apply/eqP/eqP => [h|->]; last by rewrite vnormE dt0r sqrtr0.
by apply: dt_eq0P; rewrite -vnorm_sq h expr0n.
Qed.

(* projections onto orthogonal vectors do nothing *)
Lemma aorth_id tol ncv V p c v : 0 <= tol -> (c < ncv)%N ->
  (forall i, (i < ncv)%N -> dt v (V i) = 0) -> aorth tol ncv V p c v = v.
Proof.
move=> t0 hc h; elim: p c hc => [//|p IH] c hc /=.
rewrite h // normr0 [tol < 0]ltNge t0 andbF IH // ltn_mod; exact: leq_ltn_trans hc.
Qed.

(* at most two projections *)
Lemma aorth_id2 tol ncv V p c v : 0 <= tol -> (p <= 2)%N ->
  dt v (V c) = 0 -> dt v (V ((c + ncv - 1) %% ncv)%N) = 0 -> aorth tol ncv V p c v = v.
Proof.
move=> t0; case: p => [|[|[|p]]] //= _ h1 h2; rewrite h1 normr0 [tol < 0]ltNge t0 andbF //.
by rewrite h2 normr0 [tol < 0]ltNge t0 andbF.
Qed.

Section A.
Variable A : 'M[F]_n.
Variable q0 : 'cV[F]_n.
Local Notation tri := (tri A q0).
Local Notation lq := (lq A q0).
Local Notation lb := (lb A q0).
Local Notation la := (la A q0).
Local Notation lr := (lr A q0).

(* q_(j-1), zero for j = 0 *)
Definition lp (j : nat) : 'cV[F]_n := (tri j).1.1.

Lemma lq0 : lq 0 = q0. Proof. by []. Qed.
Lemma lb0 : lb 0 = 0. Proof. by []. Qed.
Lemma lp0 : lp 0 = 0. Proof. by []. Qed.
Lemma lpS j : lp j.+1 = lq j.
Proof. by rewrite /lp /SpecLanczos.lq /=; case: (tri j) => [[p q] b]. Qed.
Lemma lbS j : lb j.+1 = vnorm (lr j).
Proof. by rewrite /SpecLanczos.lb /SpecLanczos.lr /=; case: (tri j) => [[p q] b]. Qed.
Lemma lqS j : lq j.+1 = (lb j.+1)^-1 *: lr j.
Proof. by rewrite lbS /SpecLanczos.lq /SpecLanczos.lr /=; case: (tri j) => [[p q] b]. Qed.
Lemma laE j : la j = dt (lq j) (A *m lq j - lb j *: lp j).
Proof. by rewrite /SpecLanczos.la /SpecLanczos.lq /SpecLanczos.lb /lp; case: (tri j) => [[p q] b]; rewrite innerE. Qed.
Lemma lrE j : lr j = A *m lq j - lb j *: lp j - la j *: lq j.
Proof.
rewrite laE /SpecLanczos.lr /SpecLanczos.lq /SpecLanczos.lb /lp /tri_resid.
by case: (tri j) => [[p q] b]; rewrite innerE.
Qed.

Lemma lb_ge0 j : 0 <= lb j.
Proof. by case: j => [|j]; rewrite ?lb0 // lbS vnorm_ge0. Qed.

Lemma resid_scaled j : lb j.+1 != 0 -> lr j = lb j.+1 *: lq j.+1.
Proof. by move=> h; rewrite lqS scalerA mulfV // scale1r. Qed.

(* three-term relation *)
Lemma three_term j : lb j.+1 != 0 -> A *m lq j = lb j *: lp j + la j *: lq j + lb j.+1 *: lq j.+1.
Proof. by move=> h; rewrite -resid_scaled // lrE -[X in _ = _ + X]addrA -opprD [RHS]addrC subrK. Qed.

(* ---- orthonormality ----------------------------------------------------------- *)
Hypothesis symA : A^T = A.

Lemma symdt x y : dt x (A *m y) = dt (A *m x) y. Proof. by rewrite dtM symA. Qed.

(* q_0 .. q_k orthonormal as long as no residual vanishes *)
Lemma lanczos_orthonormal k : dt q0 q0 = 1 -> (forall i, (0 < i <= k)%N -> lb i != 0) ->
  forall i j, (i <= k)%N -> (j <= k)%N -> dt (lq i) (lq j) = (i == j)%:R.
Proof.
move=> h0 hb; suff H : forall m, (m <= k)%N -> forall i j, (i <= m)%N -> (j <= m)%N -> dt (lq i) (lq j) = (i == j)%:R.
  by move=> i j; exact: (H k).
elim=> [|m IH] hm i j.
  by rewrite !leqn0 => /eqP-> /eqP->; rewrite lq0 h0.
have IHm := IH (ltnW hm).
have bm : lb m.+1 != 0 by apply: hb.
have qq : dt (lq m.+1) (lq m.+1) = 1.
  by rewrite lqS dtZl dtZr -vnorm_sq -lbS; field.
have qi l : (l <= m)%N -> dt (lq m.+1) (lq l) = 0.
  move=> hl; rewrite lqS dtZl.
  suff -> : dt (lr m) (lq l) = 0 by rewrite mulr0.
  rewrite lrE !dtBl !dtZl.
  have [e|nlm] := eqVneq l m.
    by rewrite e laE dtBr dtZr [dt (lq m) (A *m _)]dtC [dt (lq m) (lp m)]dtC (IHm m m) // eqxx mulr1 subrr.
  have lm : (l < m)%N by rewrite ltn_neqAle nlm.
  rewrite [dt (lq m) (lq l)]IHm // 1?ltnW // [m == l]eq_sym (negPf nlm) mulr0 subr0.
  rewrite -symdt three_term; last by apply: hb; rewrite /= (leq_trans lm) // ltnW.
  rewrite !dtDr !dtZr (IHm m l) // (IHm m l.+1) // [m == l]eq_sym (negPf nlm) mulr0 addr0.
  have -> : lb l * dt (lq m) (lp l) = 0.
    case: l hl nlm lm => [|l] hl nlm lm; first by rewrite lb0 mul0r.
    by rewrite lpS IHm ?(gtn_eqF) ?mulr0 //; lia.
  rewrite add0r; case: m {IH} IHm hm bm qq hl nlm lm => [//|m] IHm hm bm qq hl nlm lm.
  rewrite lpS IHm // 1?ltnW //.
  have [->|ne] := eqVneq m l; first by rewrite eqxx subrr.
  by rewrite eqSS (negPf ne) !mulr0 subrr.
case: (ltngtP i m.+1) => // hi _; case: (ltngtP j m.+1) => // hj _.
- by apply: IHm.
- by rewrite hj dtC qi // ltn_eqF.
- by rewrite hi qi // gtn_eqF.
- by rewrite hi hj eqxx.
Qed.

Lemma resid_orth k : dt q0 q0 = 1 -> (forall i, (0 < i <= k)%N -> lb i != 0) ->
  forall i, (i <= k)%N -> dt (lr k) (lq i) = 0.
Proof.
move=> h0 hb i hi; have [z|nz] := eqVneq (lb k.+1) 0.
  by have -> : lr k = 0; [apply/eqP; rewrite -vnorm_eq0 -lbS z|rewrite dt0l].
rewrite resid_scaled // dtZl (@lanczos_orthonormal k.+1) //.
- by rewrite gtn_eqF // mulr0.
- move=> l /andP[l0]; rewrite leq_eqVlt => /orP[/eqP->//|]; rewrite ltnS => hl; apply: hb; by rewrite l0.
- exact: leqW.
Qed.
End A.

Lemma stop_exists (A : 'M[F]_n) q0 tol deg : (0 < deg)%N -> exists k, stop_at A q0 tol deg k.
Proof.
elim: deg => [//|d IH] _; case: (posnP d) => [->|d0].
  by exists 1%N; split=> //; [move=> i; lia|left].
have [k [hk hb hs]] := IH d0.
have [lt|ge] := ltP (lb A q0 k) tol.
  by exists k; split=> //; [lia|right].
have e : k = d by case: hs => // h; move: ge; rewrite leNgt h.
exists d.+1; split; [by rewrite ltnSn| |by left].
move=> i /andP[i0]; rewrite ltnS leq_eqVlt => /orP[/eqP->|hi]; first by rewrite -e.
by apply: hb; rewrite i0 e.
Qed.

Lemma stop_unique (A : 'M[F]_n) q0 tol deg k k' : stop_at A q0 tol deg k -> stop_at A q0 tol deg k' -> k = k'.
Proof.
suff H a b : stop_at A q0 tol deg a -> stop_at A q0 tol deg b -> (b <= a)%N.
  by move=> h1 h2; apply/eqP; rewrite eqn_leq (H _ _ h1 h2) (H _ _ h2 h1).
case=> [ha _ [->|hs]] [hb nb _]; first by case/andP: hb.
rewrite leqNgt; apply/negP => ab; have := nb a; rewrite ab (proj1 (andP ha)) leNgt hs => /(_ isT) //.
Qed.

(* ---- the kernel -------------------------------------------------------------------- *)
Section Run.
Variable A : 'M[F]_n.
Variables (eps rtol : F) (deg orth ncv : nat) (st0 : ast F n).
Let tol := Num.sqrt n%:R * rtol.
Let q0 := unitv (a_q st0).
Local Notation lq := (lq A q0).
Local Notation lb := (lb A q0).
Local Notation la := (la A q0).
Local Notation lr := (lr A q0).
Hypothesis ncv0 : (0 < ncv)%N.
Variable k : nat.
Hypothesis kstop : stop_at A q0 tol deg k.
Hypothesis hncv : ((deg <= 1) || (2 <= ncv))%N.
Let V0 := upd (a_V st0) (ncv - 1) 0.
(* re-orthogonalisation has nothing to do: either it is off, or the residuals
   are orthogonal to the stored vectors and the unused columns are zero or not
   reached *)
Hypothesis horth : orth = 0%N \/
  [/\ 0 <= eps, (forall j i, (j < k)%N -> (i <= j)%N -> dt (lr j) (lq i) = 0) &
     (orth <= 2)%N \/ forall c, (c < ncv)%N -> V0 c = 0].

Record kinv (j p c nx : nat) (st : ast F n) : Prop := KInv {
  i_c : c = (j %% ncv)%N; i_nx : (2 <= ncv)%N -> nx = (j.+1 %% ncv)%N;
  i_p : if j is j'.+1 then p = (j' %% ncv)%N else p = (ncv - 1)%N;
  i_al : forall i, a_al st i = if (i < j)%N then la i else a_al st0 i;
  i_be : forall i, a_be st i = if (i <= j)%N then lb i else a_be st0 i;
  i_V : forall i, (i <= j)%N -> (j < i + ncv)%N -> a_V st (i %% ncv)%N = lq i;
  i_W : forall i, (j < i < ncv)%N -> a_V st i = V0 i
}.

Record kpost (st : ast F n) : Prop := KPost {
  p_q : a_q st = lr k.-1;
  p_al : forall i, a_al st i = if (i < k)%N then la i else a_al st0 i;
  p_be : forall i, a_be st i = if (i <= k)%N then lb i else a_be st0 i;
  p_V : forall i, (i < k)%N -> (k <= i + ncv)%N -> a_V st (i %% ncv)%N = lq i;
  p_W : forall i, (k <= i < ncv)%N -> a_V st i = V0 i
}.

Lemma col_cases j p c nx st i : kinv j p c nx st -> (i < ncv)%N ->
  (exists l, (l <= j)%N /\ a_V st i = lq l) \/ a_V st i = V0 i.
Proof.
move=> I hi; have [ji|ij] := ltnP j i; first by right; apply: (i_W I); rewrite ji.
left; exists (j - (j - i) %% ncv)%N; split; first by exact: leq_subr.
have h := ltn_pmod (j - i) ncv0; have d := divn_eq (j - i) ncv.
have le := leq_mod (j - i) ncv.
have -> : i = ((j - (j - i) %% ncv) %% ncv)%N.
  have -> : (j - (j - i) %% ncv = (j - i) %/ ncv * ncv + i)%N by lia.
  by rewrite modnMDl modn_small.
have e : ((j - (j - (j - (j - i) %% ncv) %% ncv) %% ncv) = (j - (j - i) %% ncv))%N.
  have -> : (j - (j - i) %% ncv = (j - i) %/ ncv * ncv + i)%N by lia.
  by rewrite modnMDl (modn_small hi); lia.
by rewrite e (i_V I) //; lia.
Qed.

Lemma stop_here j : (j < k)%N -> ((lb j.+1 < tol) || (j.+1 == deg)) = (j.+1 == k).
Proof.
case: kstop => hk hb hs jk; apply/idP/eqP => [h|e].
  apply/eqP; rewrite eqn_leq jk leqNgt; apply/negP => kj.
  case/orP: h => [h|/eqP h]; last by lia.
  by have := hb j.+1; rewrite kj leNgt h => /(_ isT).
by rewrite e; case: hs => [->|->] //; rewrite eqxx orbT.
Qed.

Lemma mod_neq i j : (i < j)%N -> (j < i + ncv)%N -> (i %% ncv == j %% ncv)%N = false.
Proof.
move=> ij ji; apply/negP; rewrite eq_sym eqn_mod_dvd 1?ltnW // => /dvdnP [q e].
by case: q e => [|q] e; nia.
Qed.

Lemma aresid_run j p c nx st : (j < k)%N -> kinv j p c nx st ->
  A *m a_V st c - a_be st j *: a_V st p = A *m lq j - lb j *: lp A q0 j /\ aresid A ncv eps orth j p c st = lr j.
Proof.
move=> jk I; have Vc : a_V st c = lq j by rewrite (i_c I) (i_V I) //; lia.
have W : A *m a_V st c - a_be st j *: a_V st p = A *m lq j - lb j *: lp A q0 j.
  rewrite Vc (i_be I) leqnn; congr (_ - _); case: j jk I {Vc} => [|j] jk I; first by rewrite lb0 !scale0r.
  rewrite lpS (i_p I) (i_V I) //; case: kstop => hk _ _; lia.
split=> //; rewrite /aresid W Vc -laE -lrE /areorth.
case: horth => [->//|[e0 ho [o2|V00]]].
  have t0 : 0 <= 2%:R * eps * Num.sqrt n%:R by rewrite !mulr_ge0 ?ler0n ?sqrtr_ge0.
  apply: aorth_id2 => //; first by rewrite Vc ho.
  case: j jk I W Vc => [|j] jk I W Vc.
    rewrite (i_c I) mod0n add0n; have [n2|n1] := ltnP 1 ncv.
      rewrite modn_small; last by lia.
      by rewrite (i_W I) /V0 ?/upd ?eqxx ?dt0r //; lia.
    have e1 : ncv = 1%N by lia.
    have -> : ((ncv - 1) %% ncv = 0 %% ncv)%N by rewrite e1.
    by rewrite (i_V I) ?ho //; lia.
  have -> : ((c + ncv - 1) %% ncv = j %% ncv)%N.
    rewrite (i_c I); have -> : ((j.+1 %% ncv + ncv - 1) = j.+1 %% ncv + (ncv - 1))%N by lia.
    rewrite modnDml; have -> : (j.+1 + (ncv - 1) = j + ncv)%N by lia.
    by rewrite modnDr.
  have [n2|n1] := ltnP 1 ncv; first by rewrite (i_V I) ?ho //; lia.
  have e1 : ncv = 1%N by lia.
  have -> : (j %% ncv = j.+1 %% ncv)%N by rewrite e1 !modn1.
  by rewrite (i_V I) ?ho //; lia.
apply: aorth_id => //.
- by rewrite !mulr_ge0 ?ler0n ?sqrtr_ge0.
- by rewrite (i_c I) ltn_mod.
- by move=> i hi; case: (col_cases I hi) => [[l [hl ->]]|->]; rewrite ?V00 ?dt0r ?ho.
Qed.

Lemma aloop_inv r j p c nx st : (r + j)%N = deg -> (j < k)%N -> kinv j p c nx st ->
  kpost (aloop A eps tol deg orth ncv r j p c nx st).
Proof.
elim: r j p c nx st => [|r IH] j p c nx st e jk I; first by case: kstop; lia.
have [W R] := aresid_run jk I.
have Vc : a_V st c = lq j by rewrite (i_c I) (i_V I) //; lia.
rewrite aloopS /astep R W -vnormE -lbS stop_here //.
have al i : upd (a_al st) j (dt (a_V st c) (A *m lq j - lb j *: lp A q0 j)) i = if (i < j.+1)%N then la i else a_al st0 i.
  rewrite /upd Vc -laE (i_al I) ltnS; case: eqP => [->|ne]; first by rewrite leqnn.
  by rewrite [in RHS]leq_eqVlt; case: eqP.
have be i : upd (a_be st) j.+1 (lb j.+1) i = if (i <= j.+1)%N then lb i else a_be st0 i.
  rewrite /upd (i_be I); case: eqP => [->|ne]; first by rewrite leqnn.
  by rewrite [in RHS]leq_eqVlt ltnS; case: eqP.
case: (boolP (j.+1 == k)) => [/eqP ek|nk] /=.
  split=> /=; [by rewrite -ek|by move=> i; rewrite -ek|by move=> i; rewrite -ek| |].
    by move=> i h1 h2; apply: (i_V I); lia.
  by move=> i h; apply: (i_W I); lia.
have jk' : (j.+1 < k)%N by rewrite ltn_neqAle nk.
have n2 : (2 <= ncv)%N by case: kstop => hk _ _; lia.
apply: IH; [lia|by []|split=> //=].
- exact: (i_nx I).
- by move=> _; rewrite addn2.
- exact: (i_c I).
- move=> i h1 h2; rewrite /upd (i_nx I n2); have [->|ne] := eqVneq i j.+1; first by rewrite eqxx lqS.
  by rewrite mod_neq ?(i_V I) //; lia.
- move=> i h; rewrite /upd (i_nx I n2) modn_small; last by lia.
  by case: eqP => [|_]; [lia|apply: (i_W I); lia].
Qed.

Lemma akernel_run : kpost (akernel A eps rtol deg orth ncv st0).
Proof.
apply: aloop_inv; [by rewrite addn0|by case: kstop; lia|split=> //=].
- by rewrite mod0n.
- by move=> n2; rewrite modn_small.
- by case=> [|i]; rewrite /upd //= lb0.
- by move=> i; rewrite leqn0 => /eqP-> _; rewrite mod0n /upd eqxx.
- by move=> i; rewrite {1}/upd; case: eqP => //; lia.
Qed.
End Run.
End Rec.
