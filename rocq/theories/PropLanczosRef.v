(* C84: the pure-Python transcription _lanczos_recurrence of lanczos.py agrees with the native kernel. *)
From mathcomp Require Import all_ssreflect all_algebra zify ring.
From Verif Require Import Base ModelXtrace LemXtrace ModelLanczos SpecLanczos LemLanczos LemLanczos2 ModelLanczosRef.
Set Implicit Arguments.
Unset Strict Implicit.
Unset Printing Implicit Defensive.
Import Order.TTheory GRing.Theory Num.Theory.
Local Open Scope ring_scope.

Section Ref.
Variable F : rcfType.
Variable n : nat.
Implicit Types (x y v : 'cV[F]_n) (V : nat -> 'cV[F]_n) (A : 'M[F]_n).

Lemma npdot_cseq x y : npdot (cseq x) (cseq y) = dt x y.
Proof. by rewrite /npdot zip_cseq dtE big_map big_enum. Qed.
Lemma npsubs_cseq x c y : npsubs (cseq x) c (cseq y) = cseq (x - c *: y).
Proof. by have := esubs_cseq x c y; rewrite /esubs !size_cseq eqxx => -[]. Qed.
Lemma npnorm_cseq x : npnorm (cseq x) = Num.sqrt (dt x x).
Proof. by rewrite /npnorm -sqnorm_cseq. Qed.
Lemma npmul_cseq A x : npmul A (cseq x) = cseq (A *m x).
Proof. exact: apply_cseq. Qed.

Definition cols (k : nat) V : seq (seq F) := [seq cseq (V c) | c <- iota 0 k].
Lemma size_cols k V : size (cols k V) = k. Proof. by rewrite size_map size_iota. Qed.
Lemma npcol_cols k V c : (c < k)%N -> npcol (cols k V) c = cseq (V c).
Proof. by move=> h; rewrite /npcol (nth_map 0%N) ?size_iota // nth_iota. Qed.

Lemma set_cols k V c x : (c < k)%N -> set_nth [::] (cols k V) c (cseq x) = cols k (upd V c x).
Proof.
move=> h; apply: (@eq_from_nth _ [::]); first by rewrite size_set_nth !size_cols; apply/maxn_idPr.
move=> i; rewrite size_set_nth size_cols (maxn_idPr h) => hi.
by rewrite nth_set_nth /= -[RHS]/(npcol _ _) npcol_cols // /upd; case: ifP => // _; rewrite -/(npcol _ _) npcol_cols.
Qed.

Lemma set_mkseq (f : nat -> F) l j (a : F) : (j < l)%N -> set_nth 0 (mkseq f l) j a = mkseq (upd f j a) l.
Proof. by move=> h; have := wr_mkseq f a h; rewrite /wr size_mkseq h => -[]. Qed.

Lemma orth_ref_cols (eps : F) k V c (orth : int) v : (c < k)%N ->
  (if 0 < orth then orth_ref eps n (cseq v) (cols k V) c%:Z orth true else cseq v) =
  cseq (areorth eps k V c (if 0 < orth then `|orth|%N else 0%N) v).
Proof.
move=> h; case: ifP => [h0|//]; rewrite /orth_ref h0 /areorth; set tol := 2%:R * _ * _.
set p := absz orth; clearbody p; clear h0.
have : absz ((c%:Z + 0%N%:Z * -1) %% k%:Z)%Z = c by rewrite mul0r addr0 modz_nat absz_nat modn_small.
move: 0%N => m; move: {1 2}(c%:Z) => s.
elim: p m c h v => [//|p IH] m c h v e /=.
rewrite size_cols e npcol_cols // npnorm_cseq.
rewrite sqr_sqrtr; last exact: dtge0.
rewrite npdot_cseq.
have -> : (if (tol < dt (V c) (V c)) && (tol < `|dt v (V c)|) then npsubs (cseq v) (dt v (V c) / dt (V c) (V c)) (cseq (V c)) else cseq v)
  = cseq (if (tol < dt (V c) (V c)) && (tol < `|dt v (V c)|) then v - (dt v (V c) / dt (V c) (V c)) *: V c else v).
  by case: ifP => _; rewrite ?npsubs_cseq.
have k0 : (0 < k)%N by apply: leq_ltn_trans h.
apply: IH; first by rewrite ltn_mod.
have ei : (s + m%:Z * -1 = c%:Z %[mod k%:Z])%Z by rewrite -[in RHS]e gez0_abs ?modz_mod ?modz_ge0 //; lia.
have -> : s + m.+1%:Z * -1 = (s + m%:Z * -1) + -1 by lia.
rewrite -modzDml ei modzDml.
have -> : (c%:Z + -1 : int) = (-1) * k%:Z + (c + k - 1)%N%:Z by lia.
by rewrite modzMDl modz_nat absz_nat.
Qed.

Definition rconc (d k : nat) (st : ast F n) : rst F := RSt (mkseq (a_al st) d) (mkseq (a_be st) d.+1) (cols k (a_V st)).

Lemma ref_loopS A (eps tol : F) (deg orth : int) k r j p c nx al be Q :
  ref_loop eps A tol deg orth k r.+1 j p c nx (RSt al be Q) =
  let w := npsubs (npmul A (npcol Q c)) be`_j (npcol Q p) in
  let a := npdot (npcol Q c) w in
  let v1 := npsubs w a (npcol Q c) in
  let v := if 0 < orth then orth_ref eps n v1 Q c%:Z orth true else v1 in
  let b := npnorm v in
  let al' := set_nth 0 al j a in
  let be' := set_nth 0 be j.+1 b in
  if (b < tol) || (j.+1%:Z == deg) then Ok (Some (RSt al' be' Q))
  else if (k <= nx)%N then Err IndexError
  else if b == 0 then Ok None
  else ref_loop eps A tol deg orth k r j.+1 c nx (nx.+1 %% k) (RSt al' be' (set_nth [::] Q nx [seq y / b | y <- v])).
Proof. by []. Qed.

Lemma ref_loop_conc A (eps tol : F) deg (orth : int) k r j p c (nx : nat) st :
  (0 < k)%N -> (r + j = deg)%N -> (p < k)%N -> (c < k)%N ->
  ((deg <= 1) || ((2 <= k) && (nx == j.+1 %% k)))%N ->
  let R := ref_loop eps A tol deg%:Z orth k r j p c nx (rconc deg k st) in
  (R = Ok None /\ tol <= 0) \/
  R = Ok (Some (rconc deg k (aloop A eps tol deg (if 0 < orth then `|orth|%N else 0%N) k r j p c nx st))).
Proof.
move=> k0; elim: r j p c nx st => [|r IH] j p c nx st e hp hc h; first by right.
rewrite aloopS {1}/rconc ref_loopS; cbv zeta; rewrite !npcol_cols // nth_mkseq; last by lia.
rewrite npmul_cseq npsubs_cseq npdot_cseq npsubs_cseq orth_ref_cols // npnorm_cseq.
rewrite set_mkseq; last by lia.
rewrite set_mkseq; last by lia.
rewrite /astep -/(aresid A k eps _ j p c st); set v := aresid _ _ _ _ _ _ _ _; set b := Num.sqrt (dt v v).
have -> : (j.+1%:Z == deg%:Z) = (j.+1 == deg) by apply/eqP/eqP; lia.
case: ifP => [hb|/negbT]; first by right.
rewrite negb_or => /andP[hb hj].
have [k2 /eqP hn] : (2 <= k)%N /\ nx == (j.+1 %% k)%N.
  by case/orP: h => [|/andP[]] //; move: hj; case: eqP => //; lia.
have hx : (nx < k)%N by rewrite hn ltn_mod.
rewrite leqNgt hx /=; case: ifP => [/eqP b0|_].
  by left; split=> //; move: hb; rewrite b0 -leNgt.
rewrite scale_cseq set_cols //.
have -> : (nx.+1 %% k = (j + 2) %% k)%N by rewrite hn -addn1 modnDml addn1 addn2.
apply: (IH _ _ _ _ (ASt v _ _ _)) => //; first by lia.
by rewrite k2 /= addn2 eqxx orbT.
Qed.

(* ---- the start ------------------------------------------------------------------- *)
Lemma nseq_cols k : nseq k (nseq n 0) = cols k (fun _ => 0).
Proof.
rewrite /cols; apply: (@eq_from_nth _ [::]); first by rewrite size_nseq size_map size_iota.
by move=> i; rewrite size_nseq => h; rewrite nth_nseq h (nth_map 0%N) ?size_iota // zero_cseq.
Qed.

Lemma nseq_mkseq (k : nat) (a : F) : nseq k a = mkseq (fun _ => a) k.
Proof. by apply: (@eq_from_nth _ a) => [|i]; rewrite size_nseq ?size_mkseq // => h; rewrite nth_nseq h nth_mkseq. Qed.

Lemma flat0 k : nseq (n * k) (0 : F) = flatV k (fun _ => 0 : 'cV[F]_n).
Proof.
rewrite -[LHS](@flatVK F n k) ?size_nseq //; congr flatten; apply/eq_in_map => c _; congr cseq.
by apply/colP => i; rewrite !mxE nth_drop nth_nseq; case: ifP.
Qed.

(* the abstract state in which both implementations enter their loops *)
Definition start q : ast F n := ASt q (fun _ => 0) (fun _ => 0) (fun _ => 0).
End Ref.

Section C84.
Variable F : rcfType.
Variable eps : F.
Variable n : nat.
Variable A : 'M[F]_n.

Lemma take_mkseq (f : nat -> F) d l : (d <= l)%N -> take d (mkseq f l) = mkseq f d.
Proof. by move=> h; rewrite /mkseq -map_take take_iota (minn_idPl h). Qed.

Lemma npnorm_eq0 (q : seq F) : (npnorm q == 0) = all (fun x => x == 0) q.
Proof.
rewrite /npnorm sqrtr_eq0; apply/idP/allP => [h x xq|h]; last first.
  by rewrite big_seq_cond big1 // => x /andP[/h /eqP-> _]; rewrite expr0n.
have s0 : \sum_(a <- q) a ^+ 2 == 0 by rewrite eq_le h sumr_ge0 // => i _; rewrite sqr_ge0.
by move: s0; rewrite psumr_eq0 => [/allP/(_ x xq)|i _]; rewrite ?sqrf_eq0 ?sqr_ge0.
Qed.

Lemma ref_abs (q : seq F) (deg k : nat) (rtol : F) (orth : int) :
  size q = n -> ~~ all (fun x => x == 0) q -> (0 < k)%N -> ((deg <= 1) || (2 <= k))%N ->
  let st := akernel A eps rtol deg (if 0 < orth then `|orth|%N else 0%N) k (start (cvec n q)) in
  let R := lanczos_ref eps A q deg%:Z rtol orth k%:Z in
  (R = Ok None /\ Num.sqrt n%:R * rtol <= 0) \/
  R = Ok (Some (mkseq (a_al st) deg, mkseq (a_be st) deg, cols k (a_V st))).
Proof.
move=> sq q0 k0 hd st; rewrite /lanczos_ref.
have -> : (k%:Z < 0) = false by lia.
have -> : (k%:Z == 0) = false by lia.
have -> : (deg%:Z < 0) = false by lia.
rewrite sq eqxx andFb npnorm_eq0 (negPf q0) nseq_cols; cbv iota zeta; rewrite ?absz_nat.
have qn : 0 < dt (cvec n q) (cvec n q).
  rewrite lt_neqAle dtge0 andbT eq_sym; apply: contra q0 => /eqP h.
  by rewrite -npnorm_eq0 -[q in npnorm q](cvecK sq) npnorm_cseq h sqrtr0.
have -> : [seq x / npnorm q | x <- q] = cseq (unitv (cvec n q)).
  by rewrite /unitv qn -scale_cseq cvecK // -[in LHS](cvecK sq) npnorm_cseq cvecK.
set s0 := ASt (cvec n q) (fun _ => 0) (upd (fun _ => 0) 0 0)
            (upd (upd (fun _ => 0) (k - 1) 0) 0 (unitv (cvec n q))).
have -> : RSt (nseq deg 0) (nseq deg.+1 0) (set_nth [::] (cols k (fun _ => 0 : 'cV[F]_n)) 0 (cseq (unitv (cvec n q)))) = rconc deg k s0.
  rewrite /rconc set_cols // !nseq_mkseq; congr RSt.
    by rewrite /mkseq; apply: eq_map => i; rewrite /= /upd; case: eqP.
  by apply/eq_in_map => c _; rewrite /= /upd; case: eqP => // _; case: eqP.
have := @ref_loop_conc F n A eps (Num.sqrt n%:R * rtol) deg orth k deg 0 k.-1 0 1 s0.
have h1 : (k.-1 < k)%N by lia.
have h2 : ((deg <= 1) || ((2 <= k) && (1 == 1 %% k)))%N.
  by case/orP: hd => h; rewrite h ?orbT //= modn_small // orbT.
rewrite k0 addn0 h1 h2 => /(_ isT erefl isT isT isT) /=.
case=> [[-> h]|->]; [by left|right].
rewrite /rconc /= -subn1 -/(akernel A eps rtol deg _ k (start (cvec n q))) -/st.
by rewrite take_mkseq.
Qed.

Lemma kernel_abs (q : seq F) (deg k : nat) (rtol : F) (orth : int) :
  size q = n -> (0 < k)%N -> ((deg <= 1) || (2 <= k))%N ->
  let st := akernel A eps rtol deg (if 0 < orth then `|orth|%N else 0%N) k (start (cvec n q)) in
  lanczos_recurrence eps A q deg%:Z rtol orth (nseq deg.+1 0) (nseq deg.+1 0) (nseq (n * k) 0) k =
  Some (conc deg.+1 deg.+1 k st).
Proof.
move=> sq k0 h st; rewrite -[q in lanczos_recurrence _ _ q](cvecK sq) flat0 !nseq_mkseq.
exact: (@kernel_conc F n A eps rtol deg orth k deg.+1 deg.+1 (start (cvec n q))).
Qed.

(* The same alpha, beta and basis, for every matrix, start vector, tolerance, reorthogonalisation
   parameter and number of columns for which the kernel is defined. *)
Theorem C84_reference (q : seq F) (deg k : nat) (rtol : F) (orth : int) :
  size q = n -> has (fun x => x != 0) q -> (0 < k)%N -> ((deg <= 1) || (2 <= k))%N -> 0 < rtol ->
  exists a b Q st,
  [/\ lanczos_ref eps A q deg%:Z rtol orth k%:Z = Ok (Some (a, b, Q)),
      lanczos_recurrence eps A q deg%:Z rtol orth (nseq deg.+1 0) (nseq deg.+1 0) (nseq (n * k) 0) k = Some st,
      a = take deg (k_alpha st), b = take deg (k_beta st) & flatten Q = k_V st].
Proof.
move=> sq q0 k0 hd r0.
have n0 : (0 < n)%N by case: n sq => // /size0nil e; rewrite e in q0.
have hz : ~~ all (fun x => x == 0) q by rewrite -has_predC.
have [[_ h]|->] := @ref_abs q deg k rtol orth sq hz k0 hd.
  by move: h; rewrite leNgt mulr_gt0 // sqrtr_gt0 ltr0n.
do 4!eexists; split; [by []|exact: kernel_abs|..|by []]; by rewrite take_mkseq.
Qed.

(* hence what lanczos() returns is alpha and beta[1:] of the reference *)
Variable G : Type.
Variable unif : G -> rat * G.
Theorem C84_front (q : seq F) (k : okind) (dA : dty) (deg : nat) (rtol : F) (orth : int) (rb : bool) (g : G) :
  size q = n -> has (fun x => x != 0) q -> (0 < deg <= n)%N -> 0 < rtol ->
  (dA = F64 /\ k = KDense) \/ (dA = F32 /\ k = KObject F32) ->
  let orth' := if (orth < 0) || (deg%:Z < orth) then deg%:Z else orth in
  let ncv := if rb then deg%:Z else npclip orth' 2 deg%:Z in
  exists a b Q,
    lanczos_ref eps A q deg%:Z rtol orth' ncv = Ok (Some (a, b, Q)) /\
    lanczos eps unif A k dA (Some q) (Some deg%:Z) rtol orth false rb None (LWork None None None true) g =
      Some (Ok (if rb then LPairQ (a, behead b) (flatten Q) else LPair a (behead b))).
Proof.
move=> sq q0 /andP[d0 dn] r0 hk orth' ncv.
have [k1 [ke k2]] : exists k1 : nat, ncv = k1%:Z /\ ((0 < k1) && ((deg <= 1) || (2 <= k1)))%N.
  rewrite /ncv /npclip; clearbody orth'; exists `|ncv|%N; rewrite /ncv /npclip; case: (rb); split; lia.
case/andP: k2 => k0 k2.
have [a [b [Q [st [hR hK ea eb eQ]]]]] := C84_reference orth' sq q0 k0 k2 r0.
exists a, b, Q; rewrite ke; split=> //.
have ed : Num.min deg%:Z n%:Z = deg%:Z by lia.
have hb : exists ov, resolve k (product_dtype k) dA true = Some ov /\ b_out ov = true.
  by case: hk => -[-> ->]; eexists; split.
case: hb => ov [hov ho].
rewrite /lanczos /lanczos_call ed (_ : 0 < deg%:Z = true); last by lia.
rewrite /= -/orth' -/ncv ke sq eqxx !absz_nat /= !size_nseq !eqxx /=.
have -> : (if dA is OtherDtype then true else false) = false by case: hk => -[-> _].
by rewrite hov hK ho /lanczos_format -ea -eb drop1 eQ; case: (rb).
Qed.

(* a zero start vector: the reference divides 0 by 0, the kernel returns zeros *)
Theorem C84_zero_start_refuted (deg k : nat) (rtol : F) (orth : int) :
  0 <= eps -> (0 < n)%N -> (0 < deg)%N -> (0 < k)%N -> ((deg <= 1) || (2 <= k))%N -> 0 < rtol ->
  lanczos_ref eps A (nseq n 0) deg%:Z rtol orth k%:Z = Ok None /\
  lanczos_recurrence eps A (nseq n 0) deg%:Z rtol orth (nseq deg.+1 0) (nseq deg.+1 0) (nseq (n * k) 0) k =
    Some (KSt (nseq n 0) (nseq deg.+1 0) (nseq deg.+1 0) (nseq (n * k) 0)).
Proof.
move=> e0 n0 d0 k0 hd r0; split.
  rewrite /lanczos_ref (_ : k%:Z < 0 = false); last by lia.
  rewrite (_ : k%:Z == 0 = false); last by lia.
  rewrite (_ : deg%:Z < 0 = false); last by lia.
  by rewrite size_nseq eqxx npnorm_eq0 all_nseq eqxx orbT.
rewrite kernel_abs ?size_nseq // /akernel; case: deg d0 hd => [//|d] _ hd; rewrite aloopS /astep.
rewrite -/(aresid A k eps _ _ _ _ _); set st := ASt _ _ _ _.
have z : cvec n (nseq n (0 : F)) = 0 by rewrite zero_cseq cseqK.
have u0 : a_V st 0 = 0 by rewrite /= /upd /= z /unitv dt0r ltxx.
have r0' : aresid A k eps (if 0 < orth then `|orth|%N else 0%N) 0 (k - 1) 0 st = 0.
  rewrite /aresid u0 mulmx0 scaler0 subr0 scale0r subr0.
  rewrite /areorth aorth_id // => *; rewrite ?dt0l //.
  by apply: mulr_ge0; [apply: mulr_ge0|apply: sqrtr_ge0]; rewrite ?ler0n.
rewrite r0' u0 !dt0l sqrtr0 mulr_gt0 ?sqrtr_gt0 ?ltr0n // [fst _]/= [snd _]/=; cbv iota.
rewrite /conc zero_cseq flat0 !nseq_mkseq; congr (Some (KSt _ _ _ _)).
- by rewrite /mkseq; apply: eq_map => i; rewrite /= /upd; case: eqP.
- by rewrite /mkseq; apply: eq_map => i; rewrite /= /upd; case: eqP => // _; case: eqP.
congr flatten; apply: eq_map => i; congr cseq; rewrite /= /upd cseqK.
by case: eqP => _; [rewrite /unitv dt0r ltxx|case: eqP].
Qed.

(* a single column and more than one step: the reference raises, the kernel writes outside its buffer *)
Theorem C84_one_column (q : seq F) (deg : nat) (rtol : F) :
  size q = n -> has (fun x => x != 0) q -> (2 <= deg)%N ->
  let u := (vnorm (cvec n q))^-1 *: cvec n q in
  Num.sqrt n%:R * rtol <= vnorm (A *m u - inner u (A *m u) *: u) ->
  lanczos_ref eps A q deg%:Z rtol 0 1 = Err IndexError /\
  lanczos_recurrence eps A q deg%:Z rtol 0 (nseq deg.+1 0) (nseq deg.+1 0) (nseq n 0) 1 = None.
Proof.
move=> sq q0 d2 u hres.
have n0 : (0 < n)%N by case: n sq => // /size0nil e; rewrite e in q0.
have hz : ~~ all (fun x => x == 0) q by rewrite -has_predC.
have qn : 0 < dt (cvec n q) (cvec n q).
  rewrite lt_neqAle dtge0 andbT eq_sym; apply: contra hz => /eqP h.
  by rewrite -npnorm_eq0 -[q in npnorm q](cvecK sq) npnorm_cseq h sqrtr0.
have eu : unitv (cvec n q) = u by rewrite /unitv qn /u vnormE.
move: hres; set v := _ - _ *: u => hres.
have hb : (Num.sqrt (dt v v) < Num.sqrt n%:R * rtol) || (1%N == deg) = false.
  by rewrite -vnormE ltNge hres /=; case: eqP d2 => // <-.
split.
  rewrite /lanczos_ref (_ : deg%:Z < 0 = false); last by lia.
  rewrite sq eqxx /= npnorm_eq0 (negPf hz) (_ : [seq x / npnorm q | x <- q] = cseq u); last first.
    by rewrite /u vnormE -scale_cseq cvecK // -[in LHS](cvecK sq) npnorm_cseq cvecK.
  case: deg d2 hb => [//|d] d2 hb; rewrite ref_loopS; cbv zeta; rewrite /npcol /=.
  rewrite npmul_cseq npsubs_cseq scale0r subr0 npdot_cseq npsubs_cseq npnorm_cseq -[dt u _]innerE -/v.
  by rewrite (_ : (1%:Z == d.+1%:Z) = (1%N == d.+1)) ?hb.
have -> : nseq n (0 : F) = flatV 1 (fun _ => 0 : 'cV[F]_n) by rewrite -flat0 muln1.
rewrite (nseq_mkseq deg.+1); have : (2 < deg.+1)%N by [].
move: deg.+1 => l l2.
rewrite /lanczos_recurrence [nseq n _]zero_cseq wcol_flat //= wr_mkseq //=; last by lia.
rewrite -[q in rdv q](cvecK sq) rdv_cseq /= normalized_cseq wcol_flat //= eu (_ : 0 < deg%:Z = true); last by lia.
case: deg d2 hb => [//|d] d2 hb; rewrite -[X in KSt X _ _ _](cvecK sq) kloopS /kstep.
set V := upd _ _ u; have Vu : V 0%N = u by [].
have -> : rdv (flatV 1 V) (0 * n) n = Some (cseq u) by rewrite -Vu; exact: rcol_flat.
rewrite /= apply_cseq wrv_cseq /= rd_mkseq 1?ltnW //=; last by lia.
rewrite [rcol _ _ _]rcol_flat //= rdv_cseq /= esubs_cseq /= Vu.
rewrite [upd _ _ _ _]/= scale0r subr0 edot_cseq /= wr_mkseq //=; last by lia.
rewrite esubs_cseq /= wr_mkseq //=; last by lia.
rewrite wrv_cseq /= sqnorm_cseq -[dt u _]innerE -/v.
rewrite (_ : (0 + 1 == d.+1%:Z) = (1%N == d.+1)) ?hb //.
rewrite scale_cseq /wcol size_cseq eqxx /wrv size_flatV size_cseq !mul1n.
by rewrite (_ : (n + n <= n)%N = false) //; lia.
Qed.

(* a start vector of length one is broadcast, and is then not of unit length *)
Theorem C84_broadcast (x : F) (k : nat) (rtol : F) (orth : int) (g : G) kd dA deg sm rb dt w :
  (1 < n)%N -> x != 0 -> (0 < k)%N ->
  (exists a b Q, [/\ lanczos_ref eps A [:: x] 1 rtol orth k%:Z = Ok (Some (a, b, Q)),
     a = [:: \sum_i \sum_j A i j], b = [:: 0] & head [::] Q = nseq n (Num.sg x)]) /\
  (dA = F32 \/ dA = F64 -> (if deg is Some d then (0 < d)%R else true) ->
   lanczos eps unif A kd dA (Some [:: x]) deg rtol orth sm rb dt w g = Some (Err AssertionError)).
Proof.
move=> n1 x0 k0; split; last first.
  move=> hA hd; rewrite /lanczos /lanczos_call; set d := if deg is Some d then Num.min d n%:Z else n%:Z.
  have -> : 0 < d by rewrite /d; case: (deg) hd => [d'|_] /=; lia.
  have -> : (if dA is OtherDtype then true else false) = false by case: hA => ->.
  by rewrite /= (_ : 1%N != n) //; lia.
have ex : x / `|x| = Num.sg x by rewrite -{1}(mulr_sg_norm x) mulfK // normr_eq0.
rewrite /lanczos_ref (_ : k%:Z < 0 = false); last by lia.
rewrite (_ : k%:Z == 0 = false); last by lia.
have nx : npnorm [:: x] = `|x| by rewrite /npnorm big_seq1 sqrtr_sqr.
rewrite (_ : (size [:: x] == n) = false); last by move=> /=; lia.
rewrite [size _ != _]/= nx normr_eq0 (negPf x0) [nth _ _ _]/= ex; cbv iota zeta.
set s := Num.sg x; have -> : nseq n s = cseq (const_mx s : 'cV[F]_n).
  apply: (@eq_from_nth _ 0); first by rewrite size_nseq size_cseq.
  by move=> i; rewrite size_nseq => h; rewrite nth_nseq h (nth_cseq _ (Ordinal h)) mxE.
rewrite nseq_cols set_cols //.
set V := upd _ _ _; have V0 : V 0%N = const_mx s by [].
rewrite ref_loopS; cbv zeta; rewrite !npcol_cols //; last by rewrite /=; lia.
rewrite V0 npmul_cseq npsubs_cseq scale0r subr0 npdot_cseq eqxx orbT.
do 3!eexists; split; [by []| |by []|].
  congr [:: _]; rewrite dtE; apply: eq_bigr => i _; rewrite !mxE mulr_sumr; apply: eq_bigr => j _.
  by rewrite !mxE mulrCA -expr2 sqr_sg x0 mulr1.
by case: (k) k0 => [//|k'] _; rewrite /= V0.
Qed.
End C84.

(* the hypotheses are met: a reflection, the first unit vector, two steps *)
Section Ex.
Variable F : rcfType.
Let A : 'M[F]_2 := \matrix_(i, j) (i != j)%:R.
Let q : seq F := [:: 1; 0].
Example C84_ex : exists a b Q st,
  [/\ lanczos_ref 0 A q 2 1 3 2 = Ok (Some (a, b, Q)),
      lanczos_recurrence 0 A q 2 1 3 (nseq 3 0) (nseq 3 0) (nseq 4 0) 2 = Some st,
      a = take 2 (k_alpha st), b = take 2 (k_beta st) & flatten Q = k_V st].
Proof. by apply: (@C84_reference F 0 2 A q 2 2 1 3) => //=; rewrite ?oner_eq0 ?ltr01. Qed.

(* and the residual of its first step is not zero *)
Example C84_ex_one : lanczos_ref 0 A q 2 0 0 1 = Err IndexError /\
  lanczos_recurrence 0 A q 2 0 0 (nseq 3 0) (nseq 3 0) (nseq 2 0) 1 = None.
Proof. by apply: (@C84_one_column F 0 2 A q 2 0) => //=; rewrite ?oner_eq0 // mulr0 vnorm_ge0. Qed.
End Ex.

Print Assumptions C84_reference.
Print Assumptions C84_front.
Print Assumptions C84_zero_start_refuted.
Print Assumptions C84_one_column.
Print Assumptions C84_broadcast.
