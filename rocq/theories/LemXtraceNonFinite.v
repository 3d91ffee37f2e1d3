(* Lemmas on xtrace with divisions by zero (ModelXtraceNonFinite). *)
From Coq Require Import String.
From mathcomp Require Import all_ssreflect all_algebra zify ring.
From Verif Require Import Base Spec ModelStats LemStats ModelEstimators LemEstimators ModelTyping ModelRandom
  ModelTrace LemTrace PropTrace ModelHutchpp PropHutchpp ModelXtrace LemXtrace LemXrun PropXtrace ModelNonFinite LemNonFinite PropNonFinite
  ModelXtraceNonFinite.
Set Implicit Arguments.
Unset Strict Implicit.
Unset Printing Implicit Defensive.
Import Order.TTheory GRing.Theory Num.Theory.
Local Open Scope ring_scope.

Section Num.
Variable F : rcfType.
Local Notation xn := (xnum F).

Lemma xtotal_fin (T : Type) (f : T -> F) (s : seq T) : xtotal [seq Fin (f x) | x <- s] = Fin (\sum_(x <- s) f x).
Proof. by elim: s => [|x s IH]; rewrite ?big_nil //= big_cons -/(xtotal _) IH. Qed.

Lemma xtotal_nan (T : eqType) (f : T -> xn) (s : seq T) x : x \in s -> f x = NaN -> xtotal [seq f y | y <- s] = NaN.
Proof.
elim: s => [//|y s IH]; rewrite inE /= => /orP[/eqP <- ->|h e]; first by [].
by rewrite -/(xtotal _) IH //; case: (f y).
Qed.

(* a sum of squares, one of them infinite *)
Lemma sumsq_inf (f : nat -> xn) s i : i \in s -> f i = PInf ->
  let t := xtotal [seq xmul (f j) (f j) | j <- s] in t = PInf \/ t = NaN.
Proof.
have pos r : xtotal [seq xmul (f j) (f j) | j <- r] <> NInf.
  by elim: r => //= j r; rewrite -/(xtotal _); case: (xtotal _) => [a|||]; case: (f j).
elim: s => [//|j s IH]; rewrite inE /= -/(xtotal _) => /orP[/eqP <- ->|h e].
  by case: (xtotal _) (pos s) => [a|||] //= _; [left|left|right].
by case: (IH h e) => ->; case: (f j) => [a|||] /=; by [left|right].
Qed.

Lemma xspherical_inf m (Ri : nat -> nat -> xn) i : (i < m)%N -> Ri i i = PInf -> xspherical m Ri i i = NaN.
Proof.
move=> hi e; rewrite /xspherical e.
have hm : i \in iota 0 m by rewrite mem_iota.
by case: (sumsq_inf hm e) => ->.
Qed.

Lemma xhelper_inf n m (W Z Q : 'M[F]_(n, m)) R (Ri : nat -> nat -> xn) (i : 'I_m) : Ri i i = PInf ->
  xhelper W Z Q R Ri i = NaN.
Proof.
move=> e; rewrite /xhelper /=; have hS := xspherical_inf (ltn_ord i) e.
set d := xdp (fun l : 'I_m => xspherical m Ri l i) (fun l => xdp _ _).
have -> : d = NaN by rewrite /d /xdp (xtotal_nan (x := i)) ?mem_enum // hS.
by [].
Qed.

Lemma iota_sum m (f : nat -> F) : \sum_(j <- iota 0 m) f j = \sum_(j < m) f j.
Proof. by rewrite -{1}(subn0 m) -/(index_iota 0 m) big_mkord. Qed.

Lemma xdp_fin m (x y : 'I_m -> F) : xdp (fun l => Fin (x l)) (fun l => Fin (y l)) = Fin (\sum_l x l * y l).
Proof. by rewrite /xdp (xtotal_fin (fun l => x l * y l)) big_enum. Qed.

Lemma xdp_ext m (x x' y y' : 'I_m -> xn) : (forall l, x l = x' l) -> (forall l, y l = y' l) -> xdp x y = xdp x' y'.
Proof. by move=> h1 h2; rewrite /xdp; congr xtotal; apply: eq_map => l; rewrite h1 h2. Qed.

Lemma xspherical_fin m (Ri : nat -> nat -> xn) (M R : 'M[F]_m) (l i : 'I_m) :
  (forall i j : 'I_m, Ri i j = Fin (M i j)) -> M *m R = 1%:M ->
  xspherical m Ri l i = Fin (sphericalS M l i).
Proof.
move=> e h; rewrite /xspherical e.
have -> : xtotal [seq xmul (Ri i j) (Ri i j) | j <- iota 0 m] = Fin (\sum_k M i k ^+ 2).
  rewrite -val_enum_ord -map_comp.
  have -> : [seq ((fun j => xmul (Ri i j) (Ri i j)) \o val) j | j <- enum 'I_m] = [seq Fin (M i j ^+ 2) | j <- enum 'I_m].
    by apply: eq_map => j /=; rewrite e /= expr2.
  by rewrite (xtotal_fin (fun j => M i j ^+ 2)) big_enum.
have s0 : 0 <= \sum_k M i k ^+ 2 by apply: sumr_ge0 => k _; exact: sqr_ge0.
rewrite /xsqrt ltNge s0 /= mxE.
by rewrite (negbTE (nu_neq0 h i)).
Qed.

Lemma xhelper_fin n m (W Z Q : 'M[F]_(n, m)) (R M : 'M[F]_m) (Ri : nat -> nat -> xn) (i : 'I_m) :
  (forall i j : 'I_m, Ri i j = Fin (M i j)) -> M *m R = 1%:M ->
  xhelper W Z Q R Ri i = Fin (xtrace_helper W Z Q R M VFun i 0).
Proof.
move=> e h; have hS (l : 'I_m) : xspherical m Ri l i = Fin (sphericalS M l i) := xspherical_fin l i e h.
rewrite /xhelper /xtrace_helper /=; set H := Q^T *m Z; set Wp := Q^T *m W; set T := Z^T *m W; set S := sphericalS M.
have hHS l : xdp (fun j => Fin (H l j)) (fun l : 'I_m => xspherical m Ri l i) = Fin ((H *m S) l i).
  by rewrite (xdp_ext (x' := fun j => Fin (H l j)) (y' := fun j => Fin (S j i))) // xdp_fin mxE.
rewrite !(xdp_ext (x := fun l : 'I_m => xspherical m Ri l i) (x' := fun j => Fin (S j i)) _ (fun _ => erefl)) //.
rewrite !(xdp_ext (y := fun l : 'I_m => xspherical m Ri l i) (y' := fun j => Fin (S j i)) (fun _ => erefl)) //.
rewrite (xdp_ext (y' := fun l => Fin ((H *m S) l i)) (fun _ => erefl)) //.
by rewrite !xdp_fin /= !mxE; congr Fin; rewrite !mxE; ring.
Qed.
End Num.

Section Insert.
Variable F : rcfType.
Variable n : nat.
Local Notation xn := (xnum F).
Variable qr_insert : forall k, 'M[F]_(n, k) -> 'M[F]_k -> 'cV[F]_n -> res ('M[F]_(n, k + 1) * 'M[F]_(k + 1)).
Local Notation xinsert1 := (xinsert1 qr_insert).
Local Notation xinsert_cols := (xinsert_cols qr_insert).
Implicit Types (s : xfac F) (ys us : seq 'cV[F]_n).

(* qr_insert extends an orthonormal Q by a vector outside its span; for a vector in the span it may raise, but
   if it returns the new diagonal entry of R is zero *)
Definition qr_insert_x : Prop := forall k (Q : 'M[F]_(n, k)) (R : 'M[F]_k) (u : 'cV[F]_n), Q^T *m Q = 1%:M ->
  (u != Q *m (Q^T *m u) -> exists Q' R', [/\ qr_insert Q R u = Ok (Q', R'), Q'^T *m Q' = 1%:M,
     Q' *m R' = row_mx (Q *m R) u & lsubmx Q' = Q]) /\
  (u = Q *m (Q^T *m u) -> forall Q' R', qr_insert Q R u = Ok (Q', R') -> R' (rshift k 0) (rshift k 0) = 0).
Hypothesis qrP : qr_insert_x.

(* qr_insert where it returns *)
Definition qr_total k (Q : 'M[F]_(n, k)) (R : 'M[F]_k) (u : 'cV[F]_n) : 'M[F]_(n, k + 1) * 'M[F]_(k + 1) :=
  if qr_insert Q R u is Ok p then p else (0, 0).

Lemma qr_total_ok : qr_insert_ok qr_total.
Proof.
move=> k Q R u QQ hu; have [h _] := qrP R u QQ; have [Q' [R' [e h1 h2 h3]]] := h hu.
by rewrite /qr_total e.
Qed.

Definition xgood k s ys : Prop := exists ri : nd F,
  [/\ qr_good k (xf_Q s, xf_R s, ri) ys, xf_k s = k & forall i j : 'I_k, xf_Ri s i j = Fin (to_mx k k ri i j)].
Definition xbad k s ys : Prop :=
  [/\ nd_c (xf_Q s) = k, xf_k s = k, exists2 i, (i < k)%N & xf_Ri s i i = PInf & ~ linv k ys].

Lemma good_linv k s ys : xgood k s ys -> linv k ys.
Proof.
case=> ri [[_ QQ QR RiR] _ _]; exists (to_mx k k ri *m (to_mx n k (xf_Q s))^T).
by rewrite -QR -mulmxA [_^T *m _]mulmxA QQ mul1mx.
Qed.

Lemma linv_rcons k q r ri ys u : size ys = k -> qr_good k (q, r, ri) ys ->
  let Q := to_mx n k q in
  (u = Q *m (Q^T *m u) -> ~ linv (k + 1) (rcons ys u)) /\ (u != Q *m (Q^T *m u) -> linv (k + 1) (rcons ys u)).
Proof.
move=> sz [_ QQ QR RiR] Q; rewrite -/Q in QQ QR.
set R := to_mx k k r in QR RiR; set Ri := to_mx k k ri in RiR.
rewrite /linv; have -> : mat_of_cols (k + 1) (rcons ys u) = row_mx (Q *m R) u by rewrite QR -sz mat_of_cols_rcons.
split=> [e [L hL]|hu].
  pose x := Ri *m (Q^T *m u).
  have hx : row_mx (Q *m R) u *m col_mx x (- 1%:M) = 0.
    rewrite mul_row_col mulmxN mulmx1 /x -!mulmxA [R *m (Ri *m _)]mulmxA (mulmx1C RiR) mul1mx -e; exact: subrr.
  have : col_mx x (- 1%:M) = 0 by rewrite -[col_mx _ _]mul1mx -hL -mulmxA hx mulmx0.
  move/matrixP/(_ (rshift k 0) 0); rewrite col_mxEd !mxE eqxx => /eqP.
  by rewrite oppr_eq0 oner_eq0.
pose v := u - Q *m (Q^T *m u).
have v0 : v != 0 by rewrite subr_eq0.
have d0 : dt v v != 0 by apply: contra v0 => /eqP /dt_eq0 ->.
have Qv : Q^T *m v = 0 by rewrite mulmxBr mulmxA QQ mul1mx subrr.
have vQ : v^T *m Q = 0 by rewrite -[v^T *m Q]trmxK trmx_mul trmxK Qv trmx0.
have vu : v^T *m u = (dt v v)%:M.
  have -> : u = v + Q *m (Q^T *m u) by rewrite /v subrK.
  by rewrite mulmxDr mulmxA vQ mul0mx addr0 [LHS]mx11_scalar.
pose w := (dt v v)^-1 *: v^T.
have wQ : w *m Q = 0 by rewrite /w -scalemxAl vQ scaler0.
have wu : w *m u = 1%:M by rewrite /w -scalemxAl vu scale_scalar_mx mulVf.
exists (col_mx (Ri *m Q^T - Ri *m (Q^T *m u) *m w) w).
have wQR : w *m (Q *m R) = 0 by rewrite mulmxA wQ mul0mx.
have e1 : (Ri *m Q^T - Ri *m (Q^T *m u) *m w) *m (Q *m R) = 1%:M.
  by rewrite mulmxBl -(mulmxA _ w) wQR mulmx0 subr0 -mulmxA [Q^T *m (Q *m R)]mulmxA QQ mul1mx.
have e2 : (Ri *m Q^T - Ri *m (Q^T *m u) *m w) *m u = 0.
  by rewrite mulmxBl -(mulmxA _ w) wu mulmx1 -mulmxA subrr.
by rewrite mul_col_row e1 e2 wQR wu -scalar_mx_block.
Qed.

Lemma not_linv_rcons k ys u : size ys = k -> ~ linv k ys -> ~ linv (k + 1) (rcons ys u).
Proof.
move=> sz h /(linv_le (leq_addr 1 k)) [L e]; apply: h; exists L; rewrite -e; congr (_ *m _).
by apply: mat_of_cols_eq => j hj; rewrite nth_rcons sz hj.
Qed.

Lemma of_mx_entry r c (M : 'M[F]_(r, c)) (i : 'I_r) (j : 'I_c) : nd_e (of_mx M) i j = M i j.
Proof. by rewrite /= !valK. Qed.

(* update_trinv in extended numbers, with a non-zero and with a zero pivot *)
Lemma xtrinv_fin k (Ri : nat -> nat -> xn) (M : 'M[F]_k) (R' : 'M[F]_(k + 1)) (i j : 'I_(k + 1)) :
  (forall i j : 'I_k, Ri i j = Fin (M i j)) -> R' (rshift k 0) (rshift k 0) != 0 ->
  xtrinv k Ri (fun i => nd_e (of_mx R') i k) i j = Fin (trinv_step M (col (rshift k 0) R') i j).
Proof.
move=> e h0; pose o : 'I_1 := 0; pose z := rshift k o.
have bE (l : 'I_(k + 1)) : nd_e (of_mx R') l k = R' l z.
  by rewrite -[RHS]of_mx_entry; congr nd_e; rewrite /= addn0.
have bk : nd_e (of_mx R') k k = R' z z by rewrite -bE; congr nd_e; rewrite /= addn0.
have hr : xdiv (Fin 1) (Fin (R' z z)) = Fin (R' z z)^-1 by rewrite /= (negbTE h0) mul1r.
rewrite /xtrinv bk hr /trinv_step.
have -> : (col (rshift k 0) R') (rshift k 0) 0 = R' z z by rewrite mxE.
case: (splitP j) => [j0 ej|j0 ej]; rewrite ?ej.
  have -> : j = lshift 1 j0 by apply: val_inj.
  case: (splitP i) => [i0 ei|i0 ei]; rewrite ?ei.
    have -> : i = lshift 1 i0 by apply: val_inj.
    by rewrite block_mxEul e.
  have -> : i = rshift k i0 by apply: val_inj.
  by rewrite block_mxEdl mxE.
have -> : j = rshift k j0 by apply: val_inj.
case: (splitP i) => [i0 ei|i0 ei]; rewrite ?ei.
  have -> : i = lshift 1 i0 by apply: val_inj.
  rewrite block_mxEur.
  have -> : [seq xmul (xopp (Ri i0 l)) (Fin (nd_e (of_mx R') l k)) | l <- iota 0 k] =
            [seq Fin ((- M) i0 l * R' (lshift 1 l) z) | l <- enum 'I_k].
    rewrite -val_enum_ord -map_comp; apply: eq_map => l; rewrite /comp e [nd_e _ _ _](bE (lshift 1 l)) [in RHS]mxE.
    by [].
  rewrite (xtotal_fin (fun l => (- M) i0 l * R' (lshift 1 l) z)) big_enum /= !mxE; congr Fin; congr (_ * _).
  by apply: eq_bigr => l _; rewrite !mxE.
have -> : i = rshift k i0 by apply: val_inj.
by rewrite block_mxEdr mxE !ord1 eqxx mulr1n.
Qed.

Lemma xtrinv_inf k (Ri : nat -> nat -> xn) (R' : 'M[F]_(k + 1)) : R' (rshift k 0) (rshift k 0) = 0 ->
  xtrinv k Ri (fun i => nd_e (of_mx R') i k) k k = PInf.
Proof.
move=> h; pose o : 'I_1 := 0; pose z := rshift k o.
have bk : nd_e (of_mx R') k k = R' z z by rewrite -of_mx_entry; congr nd_e; rewrite /= addn0.
by rewrite /xtrinv ltnn bk h /= eqxx /xinf_of_sign oner_eq0 ltr01.
Qed.

Lemma xinsert1_step k s ys u s' : size ys = k -> xinsert1 u s = Ok s' -> xgood k s ys \/ xbad k s ys ->
  (xgood (k + 1) s' (rcons ys u) /\ to_mx n k (xf_Q s') = to_mx n k (xf_Q s) /\ xgood k s ys) \/
  xbad (k + 1) s' (rcons ys u).
Proof.
case: s => q r k0 Ri sz; rewrite /ModelXtraceNonFinite.xinsert1 /= => e hs.
have ek : nd_c q = k by case: hs => [[ri [[[]]]]|[]].
have ek0 : k0 = k by case: hs => [[ri []]|[]].
rewrite ek0 in hs e; move: e; rewrite ek eqxx /=; case E: (qr_insert _ _ _) => [[Q' R']|] //= -[<-] /=.
case: hs => [hg|[_ _ [i hi eI] hn]]; last first.
  right; split=> //=; last exact: not_linv_rcons.
  by exists i; [rewrite ltn_addr|rewrite /xtrinv hi].
have [ri [gd _ hRi]] := hg; have [bl gl] := linv_rcons u sz gd.
have [_ QQ QR RiR] := gd; have [_ deg] := qrP (to_mx k k r) u QQ.
case: (eqVneq u (to_mx n k q *m ((to_mx n k q)^T *m u))) => hu.
  right; split=> //=; last exact: bl.
  by exists k; [rewrite addn1|apply: xtrinv_inf; exact: deg hu _ _ E].
left; have [s2 [es gd' eQ]] := insert1_good qr_total_ok sz gd (gl hu).
move: es; rewrite /ModelXtrace.insert1 /=; case: gd => -[_ sr sc] _ _ _; rewrite ek sr sc /qr_total E.
case eU: (update_trinv _ _) => [Ri'|] //= -[es']; rewrite -es' in gd' eQ; split; last by split; [exact: eQ|rewrite ek0; exact: hg].
exists (of_mx Ri'); split=> // i j; rewrite to_of_mx.
have [Q2 [R2 [E2 QQ2 QR2 lQ]]] := (qrP (to_mx k k r) u QQ).1 hu.
move: eU; rewrite /update_trinv; case: eqP => // e1; case: eqP => // e2; rewrite !castmx_id => -[<-].
apply: xtrinv_fin => //.
move: E2; rewrite /= E => -[e3 e4]; rewrite -{}e3 -{}e4 in QQ2 QR2 lQ.
apply/eqP => h0; case/eqP: hu; pose b := col (rshift k 0) R'.
have uE : u = to_mx n k q *m usubmx b.
  have {1}-> : u = Q' *m b by rewrite /b -col_mul QR2; apply/colP => l; rewrite mxE row_mxEr.
  rewrite -{1}(hsubmxK Q') lQ -{1}(vsubmxK b).
  have -> : dsubmx b = 0 by apply/matrixP => l l'; rewrite !mxE !ord1 h0.
  by rewrite mul_row_col mulmx0 addr0.
by rewrite {2}uE !mulmxA -[_ *m _ *m _ *m _]mulmxA; rewrite -!mulmxA [_^T *m (_ *m _)]mulmxA QQ mul1mx.
Qed.

Lemma xinsert_cols_step k s ys us s' : size ys = k -> xinsert_cols us s = Ok s' -> xgood k s ys \/ xbad k s ys ->
  (xgood (k + size us) s' (ys ++ us) /\ to_mx n k (xf_Q s') = to_mx n k (xf_Q s) /\ xgood k s ys) \/
  xbad (k + size us) s' (ys ++ us).
Proof.
elim: us k s ys => [|u us IH] k s ys sz /=.
  by case=> <- h; rewrite addn0 cats0; case: h => h; [left|right].
case E: (ModelXtraceNonFinite.xinsert1 _ _ _) => [s1|] //= e h.
have sz1 : size (rcons ys u) = (k + 1)%N by rewrite size_rcons sz addn1.
have h1 := xinsert1_step sz E h.
have h1' : xgood (k + 1) s1 (rcons ys u) \/ xbad (k + 1) s1 (rcons ys u) by case: h1 => [[]|]; [left|right].
have := IH _ _ _ sz1 e h1'; rewrite cat_rcons -addnA add1n => -[[g2 [e2 g1]]|b2]; last by right.
left; split=> //; case: h1 => [[_ [e1 g0]]|[_ _ _ nl]]; last by case: nl; exact: good_linv g1.
by split=> //; rewrite -e1; apply/matrixP => i j; rewrite !(to_mx_le (leq_addr 1 k)) e2.
Qed.

(* independent columns are inserted without raising *)
Lemma xinsert_cols_good k s ys us : size ys = k -> xgood k s ys -> linv (k + size us) (ys ++ us) ->
  exists s', [/\ xinsert_cols us s = Ok s', xgood (k + size us) s' (ys ++ us) & to_mx n k (xf_Q s') = to_mx n k (xf_Q s)].
Proof.
elim: us k s ys => [|u us IH] k s ys sz h hl /=; first by exists s; rewrite addn0 cats0.
have hl1 : linv (k + 1) (rcons ys u).
  have := linv_le (k' := k + 1) _ hl; rewrite leq_add2l /= => /(_ isT) [L e]; exists L; rewrite -[RHS]e.
  congr (_ *m _); apply: mat_of_cols_eq => j; rewrite -sz addn1 ltnS nth_rcons nth_cat => hj.
  by case: ltngtP hj => // ->; rewrite subnn.
have [ri [gd ek _]] := h; have [bl _] := linv_rcons u sz gd; have [[eq _ _] QQ _ _] := gd.
have hu : u != to_mx n k (xf_Q s) *m ((to_mx n k (xf_Q s))^T *m u) by apply/eqP => /bl; apply.
have [s1 e1] : exists s1, xinsert1 u s = Ok s1.
  have [Q' [R' [e _ _ _]]] := (qrP (to_mx k k (xf_R s)) u QQ).1 hu.
  by rewrite /ModelXtraceNonFinite.xinsert1 eq e /= ek eqxx /=; eexists.
have sz1 : size (rcons ys u) = (k + 1)%N by rewrite size_rcons sz addn1.
case: (xinsert1_step sz e1 (or_introl h)) => [[h1 [eQ _]]|[_ _ _ nl]]; last by case: nl.
have [|s2 [e2 h2 e3]] := IH _ s1 _ sz1 h1; first by rewrite cat_rcons -addnA add1n.
rewrite e1 /=; exists s2; split=> //; first by move: h2; rewrite cat_rcons -addnA add1n.
by rewrite -eQ; apply/matrixP => i j; rewrite !(to_mx_le (leq_addr 1 k)) e3.
Qed.

(* an insertion that never raises *)
Lemma xinsert_cols_ok us s : (forall k (Q : 'M[F]_(n, k)) R u, exists p, qr_insert Q R u = Ok p) ->
  xf_k s = nd_c (xf_Q s) -> exists s', xinsert_cols us s = Ok s' /\ xf_k s' = nd_c (xf_Q s').
Proof.
move=> h; elim: us s => [|u us IH] s e /=; first by exists s.
rewrite /ModelXtraceNonFinite.xinsert1; have [[Q' R'] ->] /= := h _ (to_mx n (nd_c (xf_Q s)) (xf_Q s)) (to_mx (nd_c (xf_Q s)) (nd_c (xf_Q s)) (xf_R s)) u.
by rewrite e eqxx /=; apply: IH.
Qed.
End Insert.

(* an estimator fed one batch *)
Section OneBatch.
Variable F : rcfType.
Local Notation xn := (xnum F).

Lemma one_batch r (s : seq xn) : (0 < size s)%N -> exists e,
  [/\ xest_update (xest_init F 1 false r) (Arr1 s) = (e, None), xe_n e = size s,
      head NaN (xest_estimate e) = xbatch_mean [seq [:: x] | x <- s] 0 & LemNonFinite.xcol [seq [:: x] | x <- s] 0 = s].
Proof.
move=> h; rewrite /xest_update /= /xacc_update /= add0n size_map [size s == 0%N]eqn0Ngt h /=.
eexists; split; [reflexivity|by []| |].
  rewrite /xest_estimate /= [size s == 0%N]eqn0Ngt h.
  set X := [seq [:: x] | x <- s]; rewrite -[head NaN _]/(xat (xmu_step 1 0 [:: Fin 0] X) 0).
  have sX : size X = size s by rewrite size_map.
  rewrite xmu_stepE ?sX //= add0n; case: (xbatch_mean X 0) => // c.
  by rewrite subr0 add0r divff ?mul1r // pnatr_eq0 -lt0n.
by rewrite /LemNonFinite.xcol -map_comp -[RHS]map_id; apply: eq_map.
Qed.
End OneBatch.

Section Run.
Variable F : rcfType.
Variable G : Type.
Variables (tppf : F -> nat -> F) (zq : F -> F).
Variable n : nat.
Local Notation xn := (xnum F).
Variable qr_insert : forall k, 'M[F]_(n, k) -> 'M[F]_k -> 'cV[F]_n -> res ('M[F]_(n, k + 1) * 'M[F]_(k + 1)).
Variables (A : 'M[F]_n) (b : nat) (sample : sampler F G n) (r : bool) (g0 : G).
Hypothesis ok : sample_ok sample.
Hypothesis b0 : (0 < b)%N.
Local Notation xtstate := (xtstate F G n).
Local Notation remaining := (remaining n b).
Local Notation body := (xt_body qr_insert A b%:Z sample r).
Implicit Types (st : xtstate).

Definition xtk st : nat := size (xt_probes st).
Definition xtY st : seq 'cV[F]_n := [seq A *m v | v <- xt_probes st].

(* the values computed from a state *)
Definition xtvals st : seq xn :=
  let k := xtk st in
  [seq xhelper (to_mx n k (xt_W st)) (to_mx n k (xt_Z st)) (to_mx n k (xf_Q (xt_fac st))) (to_mx k k (xf_R (xt_fac st)))
         (xf_Ri (xt_fac st)) i | i <- enum 'I_k].

Record xtshape st : Prop := XTShape {
  xts_le : (xtk st <= n)%N;
  xts_Wc : nd_c (xt_W st) = xtk st;
  xts_W : to_mx n (xtk st) (xt_W st) = mat_of_cols (xtk st) (xt_probes st);
  xts_Zc : nd_c (xt_Z st) = xtk st;
  xts_Qc : nd_c (xf_Q (xt_fac st)) = xtk st;
  xts_Rc : xf_k (xt_fac st) = xtk st;
  xts_n : xe_n (xt_est st) = xtk st;
  xts_est : (0 < xtk st)%N -> head NaN (xest_estimate (xt_est st)) = xbatch_mean [seq [:: x] | x <- xtvals st] 0
}.

Definition xtgood st : Prop :=
  (xgood (xtk st) (xt_fac st) (xtY st) /\ to_mx n (xtk st) (xt_Z st) = A *m to_mx n (xtk st) (xf_Q (xt_fac st))) \/
  xbad (xtk st) (xt_fac st) (xtY st).

Lemma xtshape0 : xtshape (xt_init F n r g0).
Proof. by split=> //=; apply/matrixP => i []. Qed.

Lemma xtgood0 : xtgood (xt_init F n r g0).
Proof.
left; split; last by apply/matrixP => i [].
exists (of_mx (0 : 'M[F]_0)); split=> //=; last by case.
by split=> //; apply/matrixP; case=> // i h; case.
Qed.

Lemma xinsert1_shape u s s' : xinsert1 qr_insert u s = Ok s' ->
  nd_c (xf_Q s') = (nd_c (xf_Q s) + 1)%N /\ xf_k s' = (nd_c (xf_Q s) + 1)%N.
Proof.
by rewrite /xinsert1; case: (qr_insert _ _ _) => [[Q R]|] //=; case: ifP => // _ [<-].
Qed.

Lemma xinsert_cols_shape us s s' : xf_k s = nd_c (xf_Q s) -> xinsert_cols qr_insert us s = Ok s' ->
  nd_c (xf_Q s') = (nd_c (xf_Q s) + size us)%N /\ xf_k s' = (nd_c (xf_Q s) + size us)%N.
Proof.
elim: us s => [|u us IH] s e /=; first by case=> <-; rewrite addn0.
case E: (xinsert1 _ _ _) => [s1|] //= /IH h; have [h1 h2] := xinsert1_shape E.
by have [|-> ->] := h; rewrite ?h1 ?h2 // -addnA add1n.
Qed.

Lemma xt_step st st' : xtshape st -> (xtk st < n)%N -> body st = Ok st' ->
  [/\ xtshape st', xtk st' = (xtk st + minn (n - xtk st) b)%N & qr_insert_x qr_insert -> xtgood st -> xtgood st'].
Proof.
case=> le Wc W Zc Qc Rc nn est kn; rewrite /xt_body Wc.
set k := xtk st in le Wc W Zc Qc Rc nn kn *.
set ns := minn _ `|b%:Z|; have ens : ns = minn (n - k) b by [].
have ns0 : (0 < ns)%N by rewrite ens leq_min subn_gt0 kn.
have kns : (k + ns <= n)%N by rewrite -[X in (_ <= X)%N](subnKC le) leq_add2l ens geq_minl.
have kE : k = size (xt_probes st) by [].
case es: (sample ns (xt_gen st)) => [vs g'].
have sv : size vs = ns by rewrite -(ok ns (xt_gen st)) es.
rewrite cols_of_mul //; case ef: (xinsert_cols _ _ _) => [fac|] //=.
have [sq sk] : nd_c (xf_Q fac) = (k + ns)%N /\ xf_k fac = (k + ns)%N.
  by have := xinsert_cols_shape _ ef; rewrite Rc Qc size_map sv; apply.
rewrite Wc; set t := xhelper _ _ _ _ _.
have [|e [eu en eh ec]] := @one_batch F r [seq t i | i <- enum 'I_(k + ns)].
  by rewrite size_map size_enum_ord addn_gt0 ns0 orbT.
move: eu; rewrite /= => ->; case=> <-.
have xkE : size (xt_probes st ++ vs) = (k + ns)%N by rewrite size_cat sv.
split; first split; rewrite /xtk /= ?xkE //.
- by rewrite Wc.
- exact: hstack_W.
- by rewrite Zc sq [ns == 0%N]eqn0Ngt ns0 addnK addKn.
- by rewrite en size_map size_enum_ord.
- by move=> _; rewrite eh /xtvals /xtk /= xkE.
move=> qrP hg.
have sy : size (xtY st) = k by rewrite size_map.
have hgb : xgood k (xt_fac st) (xtY st) \/ xbad k (xt_fac st) (xtY st) by case: hg => [[]|]; [left|right].
have := xinsert_cols_step qrP sy ef hgb; rewrite size_map sv => -[[h1 [h2 h3]]|h1].
  left; rewrite /xtk /= xkE /xtY /= map_cat; split=> //; apply: hstack_Z => //.
  case: hg => [[_ ->]|[_ _ _ nl]]; first by rewrite h2.
  by case: nl; exact: good_linv h3.
by right; rewrite /xtk /= xkE /xtY /= map_cat.
Qed.

Lemma xt_total st : (forall k (Q : 'M[F]_(n, k)) R u, exists p, qr_insert Q R u = Ok p) -> xtshape st -> (xtk st < n)%N ->
  exists st', body st = Ok st'.
Proof.
move=> qok [le Wc W Zc Qc Rc nn est] kn; rewrite /xt_body Wc.
set k := xtk st in le Wc W Zc Qc Rc nn kn *; set ns := minn _ `|b%:Z|.
have ns0 : (0 < ns)%N by rewrite leq_min subn_gt0 kn.
case es: (sample ns (xt_gen st)) => [vs g'].
have sv : size vs = ns by rewrite -(ok ns (xt_gen st)) es.
rewrite cols_of_mul //.
have [|fac [-> _]] /= := xinsert_cols_ok [seq A *m v | v <- vs] qok (s := xt_fac st); first by rewrite Rc Qc.
rewrite Wc; set t := xhelper _ _ _ _ _.
have [|e [eu _ _ _]] := @one_batch F r [seq t i | i <- enum 'I_(k + ns)].
  by rewrite size_map size_enum_ord addn_gt0 ns0 orbT.
by move: eu; rewrite /= => ->; eexists.
Qed.

Lemma xt_test dflt st : xtshape st ->
  xcrit_call tppf zq (xt_crit F n dflt) (xt_est st) = Ok (remaining (xtk st) == 0%N).
Proof. by move=> h; rewrite remaining_gt0 // /xt_crit; case: dflt => /=; rewrite (xts_n h) ?orbb lez_nat. Qed.

(* every run that returns *)
Lemma xt_run dflt fuel st : while_not fuel (fun st => xcrit_call tppf zq (xt_crit F n dflt) (xt_est st)) body (xt_init F n r g0) = Some (Ok st) ->
  [/\ xtshape st, xtk st = n & qr_insert_x qr_insert -> xtgood st].
Proof.
move=> h; pose inv st := xtshape st /\ (qr_insert_x qr_insert -> xtgood st).
have [||[hs hg] ht] := @while_inv _ _ _ inv _ _ _ _ _ h.
- move=> s s' [hs hg]; rewrite xt_test // => -[]; rewrite remaining_gt0 // => /negbT; rewrite -ltnNge => kn e.
  by have [h1 _ h2] := xt_step hs kn e; split=> // q; apply: h2 => //; apply: hg.
- by split; [exact: xtshape0|move=> _; exact: xtgood0].
- move: ht; rewrite xt_test // => -[]; rewrite remaining_gt0 // => le; split=> //.
  by apply/eqP; rewrite eqn_leq le (xts_le hs).
Qed.

Lemma xt_returns dflt fuel : (forall k (Q : 'M[F]_(n, k)) R u, exists p, qr_insert Q R u = Ok p) -> (remaining 0 < fuel)%N ->
  exists st, while_not fuel (fun st => xcrit_call tppf zq (xt_crit F n dflt) (xt_est st)) body (xt_init F n r g0) = Some (Ok st).
Proof.
move=> qok hf.
have [|st hi h0|//|st [e _ _]] := @while_measure _ (fun st => xcrit_call tppf zq (xt_crit F n dflt) (xt_est st)) body xtshape
   (fun st => remaining (xtk st)) _ _ fuel (xt_init F n r g0) xtshape0.
- by move=> st h; apply: xt_test.
- have kn : (xtk st < n)%N by rewrite ltnNge -(remaining_gt0 n b0) -lt0n.
  have [st' e'] := xt_total qok hi kn; have [i' k' _] := xt_step hi kn e'; exists st'; split=> //.
  by rewrite k' remainingS.
- by exists st.
Qed.

(* a sampler that reads a stream, n independent products: the run does not raise *)
Lemma xt_independent dflt fuel : split_ok sample -> sample 0%N g0 = ([::], g0) -> qr_insert_x qr_insert ->
  linv n [seq A *m v | v <- (sample n g0).1] -> (remaining 0 < fuel)%N ->
  exists st, while_not fuel (fun st => xcrit_call tppf zq (xt_crit F n dflt) (xt_est st)) body (xt_init F n r g0) = Some (Ok st) /\
    xt_probes st = (sample n g0).1.
Proof.
move=> sok s0 qrP hl hf.
pose inv st := [/\ xtshape st, xtgood st & sample (xtk st) g0 = (xt_probes st, xt_gen st)].
have pre k : (k <= n)%N -> linv k [seq A *m v | v <- (sample k g0).1].
  move=> kn; have [L e] := linv_le kn hl; exists L; rewrite -e; congr (_ *m _); apply: mat_of_cols_eq => j hj.
  have hk : size (sample k g0).1 = k := ok k g0.
  have hn : size (sample n g0).1 = n := ok n g0.
  rewrite !(nth_map 0) ?hn ?hk ?(leq_trans hj kn) //; congr (_ *m _).
  have := sok k (n - k)%N g0; rewrite subnKC // => ->; by rewrite nth_cat hk hj.
have [|st [hi hg hsm] h0||//|st [e [hi hg hsm] h0]] := @while_measure _ (fun st => xcrit_call tppf zq (xt_crit F n dflt) (xt_est st)) body inv
   (fun st => remaining (xtk st)) _ _ fuel (xt_init F n r g0).
- by move=> st [h _ _]; apply: xt_test.
- have kn : (xtk st < n)%N by rewrite ltnNge -(remaining_gt0 n b0) -lt0n.
  set k := xtk st in hsm kn *.
  have [st' e' es'] : exists2 st', body st = Ok st' & sample (xtk st') g0 = (xt_probes st', xt_gen st').
    case: (hi) => le Wc W Zc Qc Rc nn est; rewrite /xt_body Wc -/k.
    set ns := minn _ `|b%:Z|.
    have ns0 : (0 < ns)%N by rewrite leq_min subn_gt0 kn.
    have kns : (k + ns <= n)%N by rewrite -[X in (_ <= X)%N](subnKC le) leq_add2l geq_minl.
    case es: (sample ns (xt_gen st)) => [vs g'].
    have sv : size vs = ns by rewrite -(ok ns (xt_gen st)) es.
    have ea : sample (k + ns)%N g0 = (xt_probes st ++ vs, g') by rewrite sok hsm /= es.
    have sy : size (xtY st) = k by rewrite size_map.
    have hgd : xgood k (xt_fac st) (xtY st).
      case: (hg) => [[]//|[_ _ _ nl]]; case: nl; have := pre k (ltnW kn); by rewrite hsm.
    rewrite cols_of_mul //.
    have [|fac [-> _ _]] /= := xinsert_cols_good qrP (us := [seq A *m v | v <- vs]) sy hgd.
      by have := pre _ kns; rewrite ea /= map_cat size_map sv.
    rewrite Wc -/k; set t := xhelper _ _ _ _ _.
    have [|e [eu _ _ _]] := @one_batch F r [seq t i | i <- enum 'I_(k + ns)].
      by rewrite size_map size_enum_ord addn_gt0 ns0 orbT.
    move: eu; rewrite /= => ->; eexists; first by [].
    by rewrite /xtk /= size_cat sv -/(xtk st) -/k ea.
  have [i' k' g'] := xt_step hi kn e'; exists st'; split=> //; last by rewrite k' remainingS.
  by split=> //; apply: g'.
- by split; [exact: xtshape0|exact: xtgood0|].
exists st; split=> //.
have hk : xtk st = n by apply/eqP; rewrite eqn_leq (xts_le hi) /= -(remaining_gt0 n b0); exact/eqP.
by rewrite hk in hsm; rewrite hsm.
Qed.

(* the probes are the first n vectors of the stream *)
Lemma xt_stream dflt fuel st : split_ok sample -> sample 0%N g0 = ([::], g0) ->
  while_not fuel (fun st => xcrit_call tppf zq (xt_crit F n dflt) (xt_est st)) body (xt_init F n r g0) = Some (Ok st) ->
  xt_probes st = (sample n g0).1.
Proof.
move=> sok s0 h; have [_ hk _] := xt_run h.
pose inv st := xtshape st /\ sample (xtk st) g0 = (xt_probes st, xt_gen st).
have [||[_ hsm] _] := @while_inv _ _ _ inv _ _ _ _ _ h; last by rewrite hk in hsm; rewrite hsm.
- move=> s s' [hs hg]; rewrite xt_test // => -[]; rewrite remaining_gt0 // => /negbT; rewrite -ltnNge => kn e.
  have [h1 _ _] := xt_step hs kn e; split=> //.
  move: e; rewrite /xt_body (xts_Wc hs); set ns := minn _ _; case es: (sample ns (xt_gen s)) => [vs g'] /=.
  case: (xinsert_cols _ _ _) => //= fac; case: (xest_update _ _) => est' [] // [<-].
  have sv : size vs = ns by rewrite -(ok ns (xt_gen s)) es.
  by rewrite /xtk /= size_cat sv -/(xtk s) sok hg /= es.
- by split; [exact: xtshape0|].
Qed.
End Run.
