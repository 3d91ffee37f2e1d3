(* Lemmas about the native kernel: on a square operator with buffers of the
   right size every access is in bounds and the run is that of a kernel on
   vectors (`akernel`). *)
From mathcomp Require Import all_ssreflect all_algebra zify ring.
From Verif Require Import Base ModelXtrace LemXtrace ModelLanczos.
Set Implicit Arguments.
Unset Strict Implicit.
Unset Printing Implicit Defensive.
Import Order.TTheory GRing.Theory Num.Theory.
Local Open Scope ring_scope.

(* ---- integers ---------------------------------------------------------------- *)
Lemma cremE a b : crem a b = sgz a * (`|a| %% `|b|)%N%:Z.
Proof. rewrite /crem; have := divn_eq `|a| `|b|; nia. Qed.

Lemma cmodE a b : 0 < b -> cmod a b = (a %% b)%Z.
Proof.
move=> b0; have pos y : 0 <= y -> crem y b = (y %% b)%Z.
  move=> y0; have <- : (`|y|%N%:Z %% `|b|%N%:Z)%Z = (y %% b)%Z by rewrite (gez0_abs y0) (gtz0_abs b0).
  rewrite cremE modz_nat; case: (eqVneq y 0) => [->|yn]; first by rewrite absz0 mod0n mulr0.
  by rewrite gtr0_sgz ?mul1r // lt_neqAle eq_sym yn.
rewrite /cmod pos.
  by rewrite modzDl /crem -mulrN addrC mulrC modzMDl.
rewrite cremE; have := ltn_pmod `|a| (_ : 0 < `|b|)%N; nia.
Qed.

Lemma cmod_nat (a b : nat) : (0 < b)%N -> `|cmod a%:Z b%:Z|%N = (a %% b)%N.
Proof. by move=> b0; rewrite cmodE ?modz_nat //; lia. Qed.

Lemma cmod_pred (a b : nat) : (0 < b)%N -> `|cmod (a%:Z + -1) b%:Z|%N = ((a + b - 1) %% b)%N.
Proof.
move=> b0; rewrite cmodE; last by lia.
have -> : (a%:Z + -1)%R = (a + b - 1)%N%:Z - b%:Z by lia.
by rewrite -[- b%:Z]mulN1r addrC modzMDl modz_nat.
Qed.

Definition upd (T : Type) (f : nat -> T) (i : nat) (x : T) : nat -> T := fun k => if k == i then x else f k.

Section Abs.
Variable F : rcfType.
Variable n : nat.
Implicit Types (x y v : 'cV[F]_n) (V : nat -> 'cV[F]_n) (A : 'M[F]_n).

(* v / |v|, or v when it vanishes *)
Definition unitv v : 'cV[F]_n := if 0 < dt v v then (Num.sqrt (dt v v))^-1 *: v else v.

Record ast : Type := ASt { a_q : 'cV[F]_n; a_al : nat -> F; a_be : nat -> F; a_V : nat -> 'cV[F]_n }.

Fixpoint aorth (tol : F) (ncv : nat) V (p i : nat) v : 'cV[F]_n :=
  if p is p'.+1 then
    aorth tol ncv V p' ((i + ncv - 1) %% ncv)
      (if (tol < dt (V i) (V i)) && (tol < `|dt v (V i)|) then v - (dt v (V i) / dt (V i) (V i)) *: V i else v)
  else v.

Definition areorth (eps : F) (ncv : nat) V (c orth : nat) v : 'cV[F]_n :=
  aorth (2%:R * eps * Num.sqrt n%:R) ncv V orth c v.

Definition aresid A ncv eps (orth j p c : nat) (st : ast) : 'cV[F]_n :=
  let w := A *m a_V st c - a_be st j *: a_V st p in
  areorth eps ncv (a_V st) c orth (w - dt (a_V st c) w *: a_V st c).

Definition astep A eps tol (deg orth ncv j p c nx : nat) (st : ast) : ast * bool :=
  let w := A *m a_V st c - a_be st j *: a_V st p in
  let v := aresid A ncv eps orth j p c st in
  let b := Num.sqrt (dt v v) in
  let al := upd (a_al st) j (dt (a_V st c) w) in
  let be := upd (a_be st) j.+1 b in
  if (b < tol) || (j.+1 == deg) then (ASt v al be (a_V st), true)
  else (ASt v al be (upd (a_V st) nx (b^-1 *: v)), false).

Fixpoint aloop A eps tol (deg orth ncv r j p c nx : nat) (st : ast) : ast :=
  if r is r'.+1 then
    let s := astep A eps tol deg orth ncv j p c nx st in
    if s.2 then s.1 else aloop A eps tol deg orth ncv r' j.+1 c nx ((j + 2) %% ncv) s.1
  else st.

Definition akernel A eps rtol (deg orth ncv : nat) (st : ast) : ast :=
  aloop A eps (Num.sqrt n%:R * rtol) deg orth ncv deg 0 (ncv - 1) 0 1
    (ASt (a_q st) (a_al st) (upd (a_be st) 0 0) (upd (upd (a_V st) (ncv - 1) 0) 0 (unitv (a_q st)))).

(* ---- concrete buffers ---------------------------------------------------------- *)
Definition cseq v : seq F := [seq v i 0 | i <- enum 'I_n].
Definition cvec (s : seq F) : 'cV[F]_n := \col_i s`_i.
Definition flatV (ncv : nat) V : seq F := flatten [seq cseq (V c) | c <- iota 0 ncv].
Definition conc (la lb ncv : nat) (st : ast) : kst F :=
  KSt (cseq (a_q st)) (mkseq (a_al st) la) (mkseq (a_be st) lb) (flatV ncv (a_V st)).

Lemma size_cseq v : size (cseq v) = n. Proof. by rewrite size_map size_enum_ord. Qed.

Lemma nth_cseq v (i : 'I_n) : (cseq v)`_i = v i 0.
Proof. by rewrite (nth_map i) ?size_enum_ord // nth_ord_enum. Qed.

Lemma cvecK s : size s = n -> cseq (cvec s) = s.
Proof.
move=> e; apply: (@eq_from_nth _ 0); first by rewrite size_cseq.
by move=> i; rewrite size_cseq => h; rewrite (nth_cseq _ (Ordinal h)) mxE.
Qed.

Lemma cseqK v : cvec (cseq v) = v.
Proof. by apply/colP => i; rewrite mxE nth_cseq. Qed.

Lemma zip_cseq x y : zip (cseq x) (cseq y) = [seq (x i 0, y i 0) | i <- enum 'I_n].
Proof. by rewrite zip_map. Qed.

Lemma edot_cseq x y : edot (cseq x) (cseq y) = Some (dt x y).
Proof. by rewrite /edot !size_cseq eqxx zip_cseq dtE big_map big_enum. Qed.

Lemma sqnorm_cseq x : sqnorm (cseq x) = dt x x.
Proof. by rewrite /sqnorm dtE big_map big_enum; apply: eq_bigr => i _; rewrite expr2. Qed.

Lemma esubs_cseq x c y : esubs (cseq x) c (cseq y) = Some (cseq (x - c *: y)).
Proof. by rewrite /esubs !size_cseq eqxx zip_cseq -map_comp; congr Some; apply: eq_map => i; rewrite /= !mxE. Qed.

Lemma scale_cseq b x : [seq y / b | y <- cseq x] = cseq (b^-1 *: x).
Proof. by rewrite -map_comp; apply: eq_map => i; rewrite /= mxE mulrC. Qed.

Lemma zero_cseq : nseq n 0 = cseq 0.
Proof.
apply: (@eq_from_nth _ 0); first by rewrite size_nseq size_cseq.
by move=> i; rewrite size_nseq => h; rewrite nth_nseq h (nth_cseq _ (Ordinal h)) mxE.
Qed.

Lemma normalized_cseq v : enormalized (cseq v) = cseq (unitv v).
Proof. by rewrite /enormalized /unitv sqnorm_cseq; case: ifP => // _; rewrite scale_cseq. Qed.

Lemma apply_cseq A x : apply_mx A (cseq x) = cseq (A *m x).
Proof. by apply: eq_map => i; rewrite mxE; apply: eq_bigr => j _; rewrite nth_cseq. Qed.

Lemma rdv_cseq v : rdv (cseq v) 0 n = Some (cseq v).
Proof. by rewrite /rdv size_cseq add0n leqnn drop0 take_oversize ?size_cseq. Qed.

Lemma wrv_cseq v x : wrv (cseq v) 0 (cseq x) = Some (cseq x).
Proof. by rewrite /wrv !size_cseq add0n leqnn take0 drop_oversize ?size_cseq ?cats0. Qed.

Lemma size_flatten_u (s ncv : nat) V : size (flatten [seq cseq (V c) | c <- iota s ncv]) = (ncv * n)%N.
Proof. by elim: ncv s => [|k IH] s //=; rewrite size_cat size_cseq IH mulSn. Qed.

Lemma size_flatV ncv V : size (flatV ncv V) = (ncv * n)%N.
Proof. exact: size_flatten_u. Qed.

Lemma flat_take s ncv V c : (c < ncv)%N ->
  take n (drop (c * n) (flatten [seq cseq (V k) | k <- iota s ncv])) = cseq (V (s + c)%N).
Proof.
elim: ncv s c => [|k IH] s [|c] //= h.
  by rewrite mul0n drop0 addn0 take_cat size_cseq ltnn subnn take0 cats0.
by rewrite mulSn drop_cat size_cseq ifN ?addKn ?IH ?addSnnS // -leqNgt leq_addr.
Qed.

Lemma rcol_flat ncv V c : (c < ncv)%N -> rcol n (flatV ncv V) c = Some (cseq (V c)).
Proof.
move=> h; rewrite /rcol /rdv size_flatV -mulSnr leq_mul2r h orbT /flatV flat_take //.
Qed.

Lemma flat_upd s ncv V c x : (c < ncv)%N ->
  take (c * n) (flatten [seq cseq (V k) | k <- iota s ncv]) ++ cseq x ++
    drop (c * n + n) (flatten [seq cseq (V k) | k <- iota s ncv])
  = flatten [seq cseq (upd V (s + c) x k) | k <- iota s ncv].
Proof.
elim: ncv s c => [|k IH] s [|c] //= h.
  rewrite mul0n add0n take0 drop_cat size_cseq ltnn subnn drop0 addn0 {1}/upd eqxx; congr (_ ++ flatten _).
  by apply/eq_in_map => i; rewrite mem_iota /upd => /andP[h1 _]; case: eqP => // e; lia.
rewrite mulSn take_cat drop_cat size_cseq ifN -?leqNgt ?leq_addr // addKn ifN -?leqNgt -?addnA ?leq_addr // addKn.
rewrite -catA IH // {2}/upd; case: eqP => [e|_]; first by lia.
by congr (_ ++ _); rewrite addSnnS.
Qed.

Lemma wcol_flat ncv V c x : (c < ncv)%N -> wcol n (flatV ncv V) c (cseq x) = Some (flatV ncv (upd V c x)).
Proof.
move=> h; rewrite /wcol size_cseq eqxx /wrv size_flatV size_cseq -mulSnr leq_mul2r h orbT.
by congr Some; rewrite mulSnr flat_upd.
Qed.

Lemma flatVK ncv (b : seq F) : size b = (n * ncv)%N -> flatV ncv (fun c => cvec (drop (c * n) b)) = b.
Proof.
rewrite /flatV mulnC.
suff H s : size (drop (s * n) b) = (ncv * n)%N -> flatten [seq cseq (cvec (drop (c * n) b)) | c <- iota s ncv] = drop (s * n) b.
  by move=> e; rewrite H ?mul0n drop0.
elim: ncv s => [|k IH] s /= e; first by apply/esym/eqP; rewrite -size_eq0 e.
rewrite IH; last by rewrite mulSn -drop_drop size_drop e mulSn addKn.
rewrite mulSn addnC -[in X in _ ++ X]drop_drop -[RHS](cat_take_drop n); congr (_ ++ _).
  apply: (@eq_from_nth _ 0); first by rewrite size_cseq size_takel // e mulSn leq_addr.
  by move=> i; rewrite size_cseq => h; rewrite (nth_cseq _ (Ordinal h)) mxE nth_take.
by rewrite !drop_drop addnC.
Qed.

Lemma rd_mkseq (f : nat -> F) l j : (j < l)%N -> rd (mkseq f l) j = Some (f j).
Proof. by move=> h; rewrite /rd size_mkseq h nth_mkseq. Qed.

Lemma wr_mkseq (f : nat -> F) l j (x : F) : (j < l)%N -> wr (mkseq f l) j x = Some (mkseq (upd f j x) l).
Proof.
move=> h; rewrite /wr size_mkseq h; congr Some; apply: (@eq_from_nth _ 0).
  by rewrite size_set_nth !size_mkseq; apply/maxn_idPr.
move=> i; rewrite size_set_nth size_mkseq (maxn_idPr h) => hi.
by rewrite nth_set_nth /= [RHS]nth_mkseq // /upd; case: ifP => // _; rewrite nth_mkseq.
Qed.

Lemma orth_conc eps ncv V c (orth : int) v : (c < ncv)%N ->
  (if 0 < orth then orth_vector eps n ncv (flatV ncv V) c%:Z orth true (cseq v) else Some (cseq v)) =
  Some (cseq (areorth eps ncv V c (if 0 < orth then `|orth|%N else 0%N) v)).
Proof.
move=> h; case: ifP => [h0|//]; rewrite /orth_vector h0 cmod_nat ?modn_small ?(leq_ltn_trans _ h) //.
rewrite /areorth; set tol := 2%:R * _ * _; set p := absz orth; clearbody p; clear h0.
elim: p c h v => [//|p IH] c h v /=.
rewrite rcol_flat //= edot_cseq /= sqnorm_cseq cmod_pred ?(leq_ltn_trans _ h) //.
have h' : ((c + ncv - 1) %% ncv < ncv)%N by rewrite ltn_mod (leq_ltn_trans _ h).
by case: ifP => _; rewrite ?esubs_cseq /= IH.
Qed.

Lemma kstep_conc A eps tol deg (orth : int) ncv j p c nx la lb st :
  (p < ncv)%N -> (c < ncv)%N -> (j < la)%N -> (j.+1 < lb)%N -> ((j.+1 == deg) || (nx < ncv))%N ->
  kstep eps A tol deg%:Z orth ncv j p c nx (conc la lb ncv st) =
  let s := astep A eps tol deg (if 0 < orth then `|orth|%N else 0%N) ncv j p c nx st in
  Some (conc la lb ncv s.1, s.2).
Proof.
move=> hp hc ha hb hn; rewrite /kstep /conc.
have -> : rdv (flatV ncv (a_V st)) (c * n) n = Some (cseq (a_V st c)) by exact: rcol_flat.
rewrite /= apply_cseq wrv_cseq /= rd_mkseq 1?ltnW // [rcol _ _ p]rcol_flat //= rdv_cseq /=.
rewrite esubs_cseq /= rcol_flat //= edot_cseq /= wr_mkseq //= esubs_cseq /= orth_conc //=.
rewrite wr_mkseq //= wrv_cseq /= sqnorm_cseq /astep -/(aresid A ncv eps _ j p c st).
have -> : (j%:Z + 1 == deg%:Z) = (j.+1 == deg) by apply/eqP/eqP; lia.
case: ifP => //= /negbT; rewrite negb_or => /andP[_ h]; move: hn; rewrite (negPf h) /= => hn.
by rewrite scale_cseq wcol_flat.
Qed.

Lemma kloopS eps n' m' (A : 'M[F]_(n', m')) tol deg orth ncv r j p c nx st : kloop eps A tol deg orth ncv r.+1 j p c nx st =
  obind (fun s : kst F * bool => if s.2 then Some s.1
          else kloop eps A tol deg orth ncv r j.+1 c nx `|cmod (j%:Z + 2) ncv%:Z|%N s.1)
    (kstep eps A tol deg orth ncv j p c nx st).
Proof. by []. Qed.

Lemma aloopS A eps tol deg orth ncv r j p c nx st : aloop A eps tol deg orth ncv r.+1 j p c nx st =
  let s := astep A eps tol deg orth ncv j p c nx st in
  if s.2 then s.1 else aloop A eps tol deg orth ncv r j.+1 c nx ((j + 2) %% ncv) s.1.
Proof. by []. Qed.

Lemma kloop_conc A eps tol deg (orth : int) ncv r j p c nx la lb st :
  (0 < ncv)%N -> (r + j = deg)%N -> (p < ncv)%N -> (c < ncv)%N -> (deg <= la)%N -> (deg < lb)%N ->
  ((deg <= 1) || ((2 <= ncv) && (nx < ncv)))%N ->
  kloop eps A tol deg%:Z orth ncv r j p c nx (conc la lb ncv st) =
  Some (conc la lb ncv (aloop A eps tol deg (if 0 < orth then `|orth|%N else 0%N) ncv r j p c nx st)).
Proof.
move=> ncv0; elim: r j p c nx st => [//|r IH] j p c nx st e hp hc ha hb h.
rewrite kloopS aloopS kstep_conc //=; [|lia|lia|by case/orP: h => [|/andP[_ ->]]; rewrite ?orbT //; case: eqP; lia].
case: ifP => // hs; have hj : (j.+1 == deg) = false by move: hs; rewrite /astep; case: ifP => // /norP[_ /negPf].
have [ncv2 hn] : (2 <= ncv)%N /\ (nx < ncv)%N by case/orP: h => [|/andP[]] //; move: hj; case: eqP => //; lia.
have -> : j%:Z + 2 = (j + 2)%N%:Z by lia.
rewrite cmod_nat // IH ?ncv2 ?ltn_mod ?orbT ?ncv0 //; lia.
Qed.

(* every access of the kernel is in bounds, and its effect is that of akernel *)
Lemma kernel_conc A eps rtol deg (orth : int) ncv la lb st :
  (0 < ncv)%N -> ((deg <= 1) || (2 <= ncv))%N -> (deg <= la)%N -> (deg < lb)%N ->
  lanczos_recurrence eps A (cseq (a_q st)) deg%:Z rtol orth (mkseq (a_al st) la) (mkseq (a_be st) lb) (flatV ncv (a_V st)) ncv =
  Some (conc la lb ncv (akernel A eps rtol deg (if 0 < orth then `|orth|%N else 0%N) ncv st)).
Proof.
move=> ncv0 h ha hb; rewrite /lanczos_recurrence zero_cseq wcol_flat /=; last by lia.
rewrite rdv_cseq /= normalized_cseq wcol_flat //= wr_mkseq /=; last by lia.
rewrite -/(conc la lb ncv (ASt (a_q st) (a_al st) (upd (a_be st) 0 0) (upd (upd (a_V st) (ncv - 1) 0) 0 (unitv (a_q st))))).
have -> : (if 0 < deg%:Z then `|deg%:Z|%N else 0%N) = deg by case: ifP; lia.
by rewrite kloop_conc ?addn0 //; [lia|case/orP: h => -> //; rewrite orbT].
Qed.
End Abs.
