(* C103: infinite and NaN samples in the estimators, the criteria, hutch and diag. *)
From mathcomp Require Import all_ssreflect all_algebra zify ring.
From Verif Require Import Base Spec ModelStats ModelEstimators LemEstimators ModelTrace.
From Verif Require Import ModelNonFinite LemNonFinite LemNonFinite2.
Set Implicit Arguments.
Unset Strict Implicit.
Unset Printing Implicit Defensive.
Import Order.TTheory GRing.Theory Num.Theory.
Local Open Scope ring_scope.

Section Loops.
Variables (S T : Type) (test : S -> res bool) (body : S -> res S).

Lemma while_inv (inv : S -> Prop) :
  (forall s s', inv s -> test s = Ok false -> body s = Ok s' -> inv s') ->
  forall f s s', inv s -> while_not f test body s = Some (Ok s') -> inv s' /\ test s' = Ok true.
Proof.
move=> hs; elim=> [//|f IH] s s' hi /=; case E: (test s) => [[]|] //; first by case=> <-.
by case Eb: (body s) => [s1|] //; apply: IH; exact: hs hi E Eb.
Qed.

Definition rmap (A B : Type) (f : A -> B) (r : res A) : res B :=
  match r with Ok a => Ok (f a) | Err e => Err e end.

Lemma while_sim (test2 : T -> res bool) (body2 : T -> res T) (f : S -> T) (inv : S -> Prop) :
  (forall s, inv s -> test2 (f s) = test s) ->
  (forall s, inv s -> body2 (f s) = rmap f (body s)) ->
  (forall s s', inv s -> body s = Ok s' -> inv s') ->
  forall n s, inv s -> while_not n test2 body2 (f s) = omap (rmap f) (while_not n test body s).
Proof.
move=> ht hb hi; elim=> [//|n IH] s h /=; rewrite ht // hb //.
case: (test s) => [[]|] //; case E: (body s) => [s'|] //=; apply: IH; exact: hi h E.
Qed.
End Loops.

Section C103.
Variable F : rcfType.
Variables (tppf : F -> nat -> F) (zq : F -> F).
Local Notation xn := (xnum F).
Implicit Types (h : seq (arr xn)) (e : xest F) (c : bcrit F).

(* ---- finite samples -------------------------------------------------------------------- *)
Theorem C103_agrees dim cov rec (h : seq (arr F)) :
  run_hist (@xest_update F) (xest_init F dim cov rec) (map (@arr_fin F) h) =
    omap (@lift_est F) (run_hist (@mest_update F) (mest_init F dim cov rec) h) /\
  forall e : mest F, run_hist (@mest_update F) (mest_init F dim cov rec) h = Some e ->
    forall c, xcrit_call tppf zq c (lift_est e) = crit_call tppf zq (as_crit c) (mest_view e).
Proof.
have sim : forall e : mest F, shaped e -> run_hist (@xest_update F) (lift_est e) (map (@arr_fin F) h) =
    omap (@lift_est F) (run_hist (@mest_update F) e h) /\
  forall e' : mest F, run_hist (@mest_update F) e h = Some e' -> shaped e'.
  elim: h => [|x h IH] e he /=; first by split=> // e' [<-].
  rewrite est_update_fin; case E: (mest_update e x) => [e1 [ex|]] //=.
  exact: IH (shaped_update he E).
rewrite est_init_fin; have [h1 h2] := sim _ (shaped_init F dim cov rec); split=> // e /h2 he c.
exact: crit_fin.
Qed.

(* ---- the running mean -------------------------------------------------------------------- *)
(* all samples of coordinate i are finite and no batch is empty *)
Definition all_finite i h : bool :=
  all (fun x => xfin (xat x i)) (all_rows h) && all (fun B => (0 < size (rows_of B))%N) h.
(* coordinate i has samples equal to `inf` (a predicate), all in the last batch, and the rest is finite *)
Definition last_batch (inf : pred xn) i h : Prop :=
  exists h1 B, [/\ h = rcons h1 B, all_finite i h1,
    all (fun x => xfin (xat x i) || inf (xat x i)) (rows_of B) & has (fun x => inf (xat x i)) (rows_of B)].

Lemma all_finiteE i h : all_finite i h = clean h i.
Proof. by rewrite /all_finite /clean /xcol all_map. Qed.

Lemma last_part (inf : pred xn) i (X : seq (seq xn)) : (forall x, inf x -> ~~ xfin x) ->
  all (fun x => xfin (xat x i) || inf (xat x i)) X && has (fun x => inf (xat x i)) X =
  [&& (0 < size X)%N, all (fun x => xfin x || inf x) (xcol X i) & ~~ all (@xfin F) (xcol X i)].
Proof.
move=> hinf; rewrite /xcol !all_map; elim: X => //= x X IH; rewrite -/(xcol X i).
case E: (xfin (xat x i)) => /=.
  have -> : inf (xat x i) = false by apply/negP => /hinf; rewrite E.
  by rewrite /= IH; case: X {IH} => //=; rewrite andbF.
by case: (inf (xat x i)) => //=; rewrite !andbT.
Qed.

Theorem C103_mean dim cov rec h e i : (i < dim)%N ->
  run_hist (@xest_update F) (xest_init F dim cov rec) h = Some e ->
  let m := xat (xa_mu (xe_acc e)) i in
  [/\ xfin m = all_finite i h,
      all_finite i h -> m = Fin (avg [seq fval (xat x i) | x <- all_rows h]),
      m = PInf <-> last_batch (@is_pinf F) i h & m = NInf <-> last_batch (@is_ninf F) i h].
Proof.
move=> hi he m; have [hm1 hm2] := xrun_mean hi he; rewrite -/m in hm1 hm2.
split; first by rewrite all_finiteE.
- by rewrite all_finiteE => /hm2 ->; rewrite /xcol -map_comp.
- have hinf x : is_pinf x -> ~~ xfin (x : xn) by case: x.
  split=> [hp|[h1 [B [eh hc ha hx]]]].
    case/lastP: h he hm1 hm2 => [|h1 B] he hm1 hm2; first by move: hm1; rewrite hp.
    have := xrun_pinf hi he; rewrite -/m hp /= => /esym /and4P[hc hB ha hn].
    exists h1, B; have := last_part i (rows_of B) hinf; rewrite -/(filled B) hB ha hn => /andP[h2 h3].
    by split=> //; rewrite all_finiteE.
  rewrite eh in he; have := xrun_pinf hi he; rewrite -/m -all_finiteE hc /=.
  by rewrite -[filled B]/(0 < size (rows_of B))%N -(last_part i (rows_of B) hinf) ha hx; clear; case: m.
- have hinf x : is_ninf x -> ~~ xfin (x : xn) by case: x.
  split=> [hp|[h1 [B [eh hc ha hx]]]].
    case/lastP: h he hm1 hm2 => [|h1 B] he hm1 hm2; first by move: hm1; rewrite hp.
    have := xrun_ninf hi he; rewrite -/m hp /= => /esym /and4P[hc hB ha hn].
    exists h1, B; have := last_part i (rows_of B) hinf; rewrite -/(filled B) hB ha hn => /andP[h2 h3].
    by split=> //; rewrite all_finiteE.
  rewrite eh in he; have := xrun_ninf hi he; rewrite -/m -all_finiteE hc /=.
  by rewrite -[filled B]/(0 < size (rows_of B))%N -(last_part i (rows_of B) hinf) ha hx; clear; case: m.
Qed.

(* the samples inf and 1: averaging them at once gives inf, one after the other NaN *)
Theorem C103_batching_refuted :
  exists (h1 h2 : seq (arr xn)) e1 e2, [/\ all_rows h1 = all_rows h2,
    run_hist (@xest_update F) (xest_init F 1 true false) h1 = Some e1,
    run_hist (@xest_update F) (xest_init F 1 true false) h2 = Some e2,
    xest_estimate e1 = [:: PInf] & xest_estimate e2 = [:: NaN]].
Proof.
exists [:: Arr1 [:: PInf; Fin 1]], [:: Arr0 PInf; Arr0 (Fin 1)].
case E1: (run_hist (@xest_update F) (xest_init F 1 true false) [:: Arr1 [:: PInf; Fin 1]]) => [e1|//].
case E2: (run_hist (@xest_update F) (xest_init F 1 true false) [:: Arr0 PInf; Arr0 (Fin 1)]) => [e2|//].
have sz e h : run_hist (@xest_update F) (xest_init F 1 true false) h = Some e -> h <> [::] ->
    (0 < size (all_rows h))%N -> xest_estimate e = [:: xat (xa_mu (xe_acc e)) 0].
  move=> he + hs; case/lastP: h he hs => // h B he hs _; have [_ hn _ _ _] := xrun_shape he.
  rewrite /xest_estimate hn eqn0Ngt hs /=.
  case/xrun_rcons: he => e0 he0 /xest_updateE [/xacc_updateE [_ _ ->] _ _ _].
  by have [-> _ _ _ _] := xrun_shape he0.
exists e1, e2; split=> //.
  rewrite (sz e1 _ E1) //; have [_ _ hp _] := C103_mean (ltn0Sn 0) E1.
  have -> : xat (xa_mu (xe_acc e1)) 0 = PInf by apply/hp; exists [::], (Arr1 [:: PInf; Fin 1]).
  by [].
rewrite (sz e2 _ E2) //; have [hf _ hp hn] := C103_mean (ltn0Sn 0) E2.
move: hf hp hn; case: (xat (xa_mu (xe_acc e2)) 0) => [x|||] // _.
  case=> /(_ erefl) [h1 [B [/(f_equal rev)]]]; rewrite rev_rcons => -[<- /(f_equal rev)]; rewrite revK => <-.
  by [].
move=> _ [/(_ erefl) [h1 [B [/(f_equal rev)]]]]; rewrite rev_rcons => -[<- _] _ //.
Qed.

(* ---- the covariance ------------------------------------------------------------------------ *)
(* an entry of S, and so of the covariance S / (n - 1), is finite if both coordinates are, and NaN otherwise *)
Theorem C103_covariance dim rec h e Sx i j : (i < dim)%N -> (j < dim)%N ->
  run_hist (@xest_update F) (xest_init F dim true rec) h = Some e -> xa_S (xe_acc e) = Some Sx ->
  (all_finite i h && all_finite j h -> xfin (xat (nth [::] Sx i) j)) /\
  (~~ (all_finite i h && all_finite j h) -> xat (nth [::] Sx i) j = NaN).
Proof.
move=> hi hj he hS; have := xrun_scatter hi hj he hS; rewrite !all_finiteE.
by case: ifP => // _ h0; split=> // _; exact: is_nanP.
Qed.

(* ---- the criteria ---------------------------------------------------------------------------- *)
(* once coordinate i has had an infinite or NaN sample, a criterion that never falls back on the number of
   samples (`stalls`) is not met, whatever is sampled next *)
Theorem C103_criteria dim cov rec h e i c : (i < dim)%N -> stalls c ->
  run_hist (@xest_update F) (xest_init F dim cov rec) h = Some e ->
  has (fun x => ~~ xfin (xat x i)) (all_rows h) -> xcrit_call tppf zq c e <> Ok true.
Proof.
move=> hi hc he hx; apply: (xcrit_stalls hi _ hc he); rewrite /hit /xcol all_map.
by rewrite -has_predC.
Qed.

(* the count alone does not look at the samples *)
Theorem C103_count dim cov rec h e n :
  run_hist (@xest_update F) (xest_init F dim cov rec) h = Some e ->
  xcrit_call tppf zq (BCount F n) e = Ok (n <= (size (all_rows h))%:Z).
Proof. by move=> he; have [_ _ hn _ _] := xrun_shape he; rewrite /= hn. Qed.

Lemma stalls_init dim cov rec c : (0 < dim)%N -> stalls c -> xcrit_call tppf zq c (xest_init F dim cov rec) <> Ok true.
Proof.
move=> hd; elim: c => //=.
- move=> r a o ho; rewrite /xtol_call /=.
  have hx : ~~ xfin (xat (nseq dim (PInf : xn)) 0) by rewrite /xat nth_nseq hd.
  have [v -> hv] := norm_nonfin ho hx; rewrite /= hv.
  by case: (norm1d o _) => //= n; rewrite hv.
- by move=> q a r /andP[]; case: a => // a _; case: r.
- by move=> s _; rewrite /xknee_call /=; case: rec.
- move=> a IHa a' IHb /andP[/IHa ha /IHb hb].
  by case: (xcrit_call _ _ a _) ha => [[]|] //= _; case: (xcrit_call _ _ a' _) hb => [[]|].
- move=> a IHa a' IHb /orP[/IHa ha|/IHb hb].
    by case: (xcrit_call _ _ a _) ha => [[]|] //= _; case: (xcrit_call _ _ a' _).
  by case: (xcrit_call _ _ a _) => [x|] //=; case: (xcrit_call _ _ a' _) hb => [[]|] //= _; rewrite andbF.
Qed.

(* ---- hutch -------------------------------------------------------------------------------------- *)
Section Hutch.
Variables (G : Type) (N : nat).
Hypothesis N_pos : (0 < N)%N.
Variable qx : 'cV[F]_N -> xn.
Variable sample : sampler F G N.
Hypothesis sample_size : forall k g, size (sample k g).1 = k.
Variables (batch : int) (rec many : bool).
Let b : int := if many then batch else 1.

Definition hinv (st : xlstate F G N) : Prop :=
  exists h, [/\ run_hist (@xest_update F) (xest_init F 1 true rec) h = Some (xl_est st),
    all_rows h = [seq [:: qx v] | v <- xl_probes st], all (@filled F) h & b = 0 -> h = [::]].

Lemma xrun_snoc h B e e' : run_hist (@xest_update F) (xest_init F 1 true rec) h = Some e ->
  xest_update e B = (e', None) -> run_hist (@xest_update F) (xest_init F 1 true rec) (rcons h B) = Some e'.
Proof.
elim: h (xest_init F 1 true rec) => [|x h IH] e0 /=; first by case=> <- ->.
by case: (xest_update e0 x) => e1 [] // /IH.
Qed.

Lemma hinv_body st st' : hinv st -> xhutch_body qx sample b st = Ok st' -> hinv st'.
Proof.
case=> h [he hr hf hb]; rewrite /xhutch_body; case: ifP => // bpos.
have := sample_size `|b|%N (xl_gen st); case: (sample _ _) => vs g' /= hs.
case E: (xest_update _ _) => [e' [ex|]] // [<-]; exists (rcons h (Arr1 [seq qx v | v <- vs])) => /=.
have b0 : b <> 0.
  move=> b0; move: hs; rewrite b0 => /size0nil hv; move: E; rewrite hv.
  have h0 := hb b0; rewrite h0 in he; case: he => <- /=.
  by rewrite /xest_update /xacc_update /=.
split=> //; first exact: xrun_snoc he E.
  by rewrite all_rows_rcons hr map_cat /rows_of /= -map_comp.
rewrite all_rcons hf andbT /filled /rows_of /= !size_map hs; lia.
Qed.

Lemma hinv_init g : hinv (XL (xest_init F 1 true rec) g [::]).
Proof. by exists [::]. Qed.

Lemma hinv_estimate st : hinv st -> (0 < size (xl_probes st))%N ->
  let x := head NaN (xest_estimate (xl_est st)) in
  xfin x = all (fun v => xfin (qx v)) (xl_probes st) /\
  (all (fun v => xfin (qx v)) (xl_probes st) -> x = Fin (avg [seq fval (qx v) | v <- xl_probes st])).
Proof.
case=> h [he hr hf hb] hp; have [hd hn _ _ _] := xrun_shape he.
have [h1 h2 _ _] := C103_mean (ltn0Sn 0) he.
have hcl : all_finite 0 h = all (fun v => xfin (qx v)) (xl_probes st).
  by rewrite /all_finite hr all_map [X in _ && X]hf andbT.
have szm : size (xa_mu (xe_acc (xl_est st))) = 1%N.
  case/lastP: h he hr {hf hb hd hn h1 h2 hcl} => [|h B] he hr; first by case: (xl_probes st) hp hr.
  case/xrun_rcons: he => e0 he0 /xest_updateE [/xacc_updateE [_ _ ->] _ _ _].
  by have [-> _ _ _ _] := xrun_shape he0; rewrite size_mkseq.
rewrite /xest_estimate hn hr size_map eqn0Ngt hp /=.
have -> : head NaN (xa_mu (xe_acc (xl_est st))) = xat (xa_mu (xe_acc (xl_est st))) 0.
  by case: (xa_mu _) szm.
rewrite -hcl; split=> // /h2 ->; congr Fin; rewrite hr -map_comp.
by [].
Qed.

Lemma hinv_empty st : hinv st -> xl_probes st = [::] -> xl_est st = xest_init F 1 true rec.
Proof.
case=> h [he hr hf _] h0; move: hr; rewrite h0 /= => hr.
have h00 : h = [::] by case: h hr hf {he} => //= B h; rewrite /all_rows /filled /=; case: (rows_of B).
by rewrite h00 in he; case: he.
Qed.

Lemma xhutchE fuel c g r : xhutch tppf zq qx fuel batch sample c rec many g = Some (Ok r) ->
  exists2 st, while_not fuel (fun st => xcrit_call tppf zq c (xl_est st)) (xhutch_body qx sample b)
      (XL (xest_init F 1 true rec) g [::]) = Some (Ok st) &
    r = (head NaN (xest_estimate (xl_est st)), xl_probes st).
Proof.
rewrite /xhutch eqn0Ngt N_pos /=; case: (while_not _ _ _ _) => [[st|]|] //= [<-].
by exists st.
Qed.

(* a run that returns under a criterion without a count saw finite samples only, and returns their mean *)
Theorem C103_hutch fuel c g x probes : stalls c ->
  xhutch tppf zq qx fuel batch sample c rec many g = Some (Ok (x, probes)) ->
  [/\ (0 < size probes)%N, forall v, v \in probes -> xfin (qx v) & x = Fin (avg [seq fval (qx v) | v <- probes])].
Proof.
move=> hc /xhutchE [st hw [-> ->]].
have [hi ht] := while_inv (inv := hinv) (fun s s' hs _ => hinv_body hs) (hinv_init g) hw.
case: (hi) => h [he hr hf hb].
have hp : (0 < size (xl_probes st))%N.
  by rewrite lt0n; apply/eqP => /size0nil h0; move: ht; rewrite (hinv_empty hi h0); exact: stalls_init (ltn0Sn 0) hc.
have hall : all (fun v => xfin (qx v)) (xl_probes st).
  apply/negPn/negP => hn; apply: (@C103_criteria 1 true rec h (xl_est st) 0 c) => //.
  by rewrite hr has_map; move: hn; rewrite -has_predC.
have [_ hx] := hinv_estimate hi hp; split=> //; last exact: hx.
by apply/allP.
Qed.

Lemma default_ok st : hinv st -> exists o, xcrit_call tppf zq (bdefault F) (xl_est st) = Ok (o || (200 <= size (xl_probes st))%N) /\
  (o -> all (fun v => xfin (qx v)) (xl_probes st) /\ (0 < size (xl_probes st))%N).
Proof.
move=> hi; case: (hi) => h [he hr hf hb]; have [hd _ hn hS _] := xrun_shape he.
pose cc := BConf (19%:R / 20%:R : F) (Fin 1) (Fin 0).
have [o ho] : exists o, xcrit_call tppf zq cc (xl_est st) = Ok o.
  rewrite /= /xconf_call; case: ifP => _; first by exists false.
  by case: (xa_S _) hS => // S0 _; rewrite hd /=; eexists.
exists o; split.
  rewrite /bdefault -/cc [xcrit_call _ _ _ _]/= -[xconf_call _ _ _ _ _ _]/(xcrit_call tppf zq cc (xl_est st)) ho /= hn hr size_map orbC.
  by congr (Ok (_ || _)); lia.
move=> o1; rewrite o1 in ho; split.
  apply/negPn/negP => hx; apply: (@C103_criteria 1 true rec h (xl_est st) 0 cc) => //.
  by rewrite hr has_map; move: hx; rewrite -has_predC.
rewrite lt0n; apply/eqP => /size0nil h0; move: ho; rewrite (hinv_empty hi h0).
exact: stalls_init (ltn0Sn 0) _.
Qed.

(* under the default criterion a run that meets an infinite or NaN sample ends with the batch that reaches
   200 samples; what it returns is finite exactly if every sample was *)
Theorem C103_default fuel g x probes :
  xhutch tppf zq qx fuel batch sample (bdefault F) rec many g = Some (Ok (x, probes)) ->
  [/\ (0 < size probes)%N, xfin x = all (fun v => xfin (qx v)) probes,
      xfin x -> x = Fin (avg [seq fval (qx v) | v <- probes]),
      (size probes < 200 + `|b|)%N & ~~ xfin x -> (200 <= size probes)%N].
Proof.
case/xhutchE => st hw [-> ->].
pose inv st := hinv st /\ (size (xl_probes st) < 200 + `|b|)%N.
have inv_body s s' : inv s -> xcrit_call tppf zq (bdefault F) (xl_est s) = Ok false ->
    xhutch_body qx sample b s = Ok s' -> inv s'.
  move=> [hi hs] ht hb; split; first exact: hinv_body hb.
  have [o [ho _]] := default_ok hi; move: ht; rewrite ho => -[/norP[_]]; rewrite -ltnNge => h200.
  move: hb; rewrite /xhutch_body; case: ifP => // _; have := sample_size `|b|%N (xl_gen s).
  case: (sample _ _) => vs g' /= hv; case: (xest_update _ _) => e' [] // [<-] /=.
  by rewrite size_cat hv ltn_add2r.
have inv0 : b <> 0 -> inv (XL (xest_init F 1 true rec) g [::]) by move=> hb; split; [exact: hinv_init | rewrite /=; lia].
have b0 : b <> 0.
  move=> b0; move: hw; case: fuel => //= f; rewrite /xconf_call /= /xhutch_body.
  have := sample_size `|b|%N g; rewrite b0 /=; case: (sample _ _) => vs g' /= /size0nil ->.
  by rewrite /xest_update /xacc_update.
have [[hi hs] ht] := while_inv (inv := inv) inv_body (inv0 b0) hw.
have [o [ho1 ho2]] := default_ok hi; rewrite ho1 in ht; case: ht => ht.
have hp : (0 < size (xl_probes st))%N by case/orP: ht => [/ho2 [] //|]; case: (size _).
have [hf hv] := hinv_estimate hi hp; split=> //; first by rewrite hf.
by rewrite hf => hn; case/orP: ht => // /ho2 [ha]; rewrite ha in hn.
Qed.

(* and such a run does end *)
Theorem C103_default_ends fuel g : (0 < b) -> (200 < fuel)%N ->
  exists r, xhutch tppf zq qx fuel batch sample (bdefault F) rec many g = Some (Ok r).
Proof.
move=> hb hf; rewrite /xhutch eqn0Ngt N_pos /= -/b.
suff loop : forall f st, hinv st -> (0 < f)%N -> (200 < f + size (xl_probes st))%N ->
    exists st', while_not f (fun st => xcrit_call tppf zq (bdefault F) (xl_est st)) (xhutch_body qx sample b) st = Some (Ok st').
  have [||st' ->] := loop fuel _ (hinv_init g); rewrite ?addn0 //; first by apply: leq_trans hf.
  by eexists.
elim=> [//|f IH] st hi _ hs; have [o [ho _]] := default_ok hi; cbn [while_not]; rewrite ho.
case: (boolP (o || _)) => [_|/norP[_]]; first by exists st.
rewrite -ltnNge => h200.
have [st' [hbody hsz]] : exists st', xhutch_body qx sample b st = Ok st' /\ (size (xl_probes st) < size (xl_probes st'))%N.
  rewrite /xhutch_body ltNge (ltW hb) /=; have := sample_size `|b|%N (xl_gen st).
  case: (sample _ _) => vs g' /= hv; case: (hi) => h [he hr _ _]; have [hd hn _ _ _] := xrun_shape he.
  have hvpos : (0 < size vs)%N by rewrite hv; move: hb; clear; lia.
  have hX : (size [seq [:: x] | x <- [seq qx v | v <- vs]] == 0)%N = false by rewrite !size_map eqn0Ngt hvpos.
  rewrite /xest_update /xacc_update /= hd /= addn_eq0 hX andbF /=.
  by eexists; split; first by []; rewrite /= size_cat -[X in (X < _)%N]addn0 ltn_add2l.
rewrite hbody; apply: IH; first exact: hinv_body hbody.
  by move: hs h200; clear; lia.
by move: hs hsz; clear; lia.
Qed.

(* a non-finite sample in the first batch: without a count, no number of rounds makes the run return *)
Theorem C103_endless fuel c g r : stalls c -> has (fun v => ~~ xfin (qx v)) (sample `|b|%N g).1 ->
  xhutch tppf zq qx fuel batch sample c rec many g <> Some (Ok r).
Proof.
move=> hc hx he; have [x ps] := r; case: r he => x' ps' he; have [hp hall _] := C103_hutch hc he.
case/xhutchE: he => st hw [_ hps].
pose inv st := xl_probes st = [::] /\ xl_gen st = g /\ xl_est st = xest_init F 1 true rec \/ has (fun v => ~~ xfin (qx v)) (xl_probes st).
have inv_body s s' : inv s -> xcrit_call tppf zq c (xl_est s) = Ok false -> xhutch_body qx sample b s = Ok s' -> inv s'.
  move=> hi _; rewrite /xhutch_body; case: ifP => // _.
  case: hi => [[h0 [hg _]]|hh]; last first.
    case: (sample _ _) => vs g'; case: (xest_update _ _) => e' [] // [<-]; right.
    by rewrite /= has_cat hh.
  move: hx; rewrite -hg; case: (sample _ _) => vs g' /= hvs; case: (xest_update _ _) => e' [] // [<-]; right.
  by rewrite /= has_cat hvs orbT.
have inv0 : inv (XL (xest_init F 1 true rec) g [::]) by left.
have [[[h0 _]|hh] _] := while_inv (inv := inv) inv_body inv0 hw; first by rewrite hps h0 in hp.
by case/hasP: hh => v hv; rewrite hall // hps.
Qed.
End Hutch.

(* on finite quadratic forms this is hutch of ModelTrace *)
Section HutchAgrees.
Variables (G : Type) (N : nat) (A : oper F N) (sample : sampler F G N).

(* the number in what hutch returns *)
Definition ret_num (r : run F G N) : xn :=
  match run_ret r with TScalar p | TPair p _ => head NaN (pyval_x 1 p) end.

Definition lift_state (st : lstate F G N) : xlstate F G N :=
  XL (lift_est (lo_est st)) (lo_gen st) (lo_probes st).

Theorem C103_hutch_agrees fuel batch c rec full callback g :
  xhutch tppf zq (fun v => Fin (quad_form A v)) fuel batch sample c rec (full || callback) g =
  omap (rmap (fun r => (ret_num r, run_probes r)))
    (hutch tppf zq fuel A batch sample (as_crit c) rec full callback g).
Proof.
rewrite /xhutch /hutch; case: eqP => [_|_]; first by case: full.
pose inv (st : lstate F G N) := shaped (lo_est st) /\ store_dim (ms_store (lo_est st)) = 1%N.
have step b notify s s' : inv s -> hutch_body A sample b notify s = Ok s' -> inv s'.
  move=> [hs hd]; rewrite /hutch_body; case: ifP => // _; case: (sample _ _) => vs g'.
  case E: (mest_update _ _) => [e' []] // [<-]; split; first exact: shaped_update hs E.
  move: E; rewrite /mest_update; case: (as_rows _) => cols X.
  by case Es: (store_update _ _) => [s1 []] // [<-] /=; have [-> _ _] := store_update_dim Es.
have inv0 : inv (LState (mest_init F 1 true rec) g [::] [::]) by split=> //; exact: shaped_init.
have sim b notify : while_not fuel (fun st => xcrit_call tppf zq c (xl_est st))
     (xhutch_body (fun v => Fin (quad_form A v)) sample b) (XL (xest_init F 1 true rec) g [::]) =
   omap (rmap lift_state) (while_not fuel (loop_test tppf zq (as_crit c)) (hutch_body A sample b notify)
     (LState (mest_init F 1 true rec) g [::] [::])).
  have -> : XL (xest_init F 1 true rec) g [::] = lift_state (LState (mest_init F 1 true rec) g [::] [::]).
    by rewrite /lift_state /= est_init_fin.
  apply: (while_sim (inv := inv)) inv0 => [s [hs _]|s _|s s']; last exact: step.
  - by rewrite /= crit_fin.
  - rewrite /xhutch_body /hutch_body; case: ifP => // _; rewrite /=; case: (sample _ _) => vs g'.
    have := est_update_fin (lo_est s) (Arr1 [seq quad_form A v | v <- vs]).
    by rewrite /arr_fin -map_comp => ->; case: (mest_update _ _) => e' [].
have last_ s : inv s -> head NaN (xest_estimate (lift_est (lo_est s))) = head NaN (pyval_x 1 (mest_estimate (lo_est s))).
  by case=> hs hd; rewrite estimate_fin // hd.
case: (full || callback).
  rewrite (sim batch callback); case E: (while_not _ _ _ _) => [[s|ex]|] //=.
  have [hi _] := while_inv (inv := inv) (fun s s' hs _ => @step batch callback s s' hs) inv0 E.
  by rewrite /ret_num /= last_.
rewrite (sim 1 false); case E: (while_not _ _ _ _) => [[s|ex]|] //=.
have [hi _] := while_inv (inv := inv) (fun s s' hs _ => @step 1 false s s' hs) inv0 E.
by rewrite /ret_num /= last_.
Qed.
End HutchAgrees.

(* ---- diag ----------------------------------------------------------------------------------------- *)
Section Diag.
Variables (G : Type) (N : nat).
Hypothesis N_pos : (0 < N)%N.
Variable mv : 'cV[F]_N -> seq xn.
Variable sample : sampler F G N.
Variable rec : bool.

(* ratio of coordinate i after the probes vs *)
Definition ratio (i : 'I_N) (vs : seq 'cV[F]_N) : F :=
  (\sum_(v <- vs) fval (xat (mv v) i) * v i 0) / \sum_(v <- vs) v i 0 ^+ 2.

(* coordinate i was never hit by a zero divisor or a non-finite product *)
Definition coord_ok (i : 'I_N) (vs : seq 'cV[F]_N) : bool :=
  (head 0 vs i 0 != 0) && all (fun v => xfin (xat (mv v) i)) vs.

Definition dinv (st : xdstate F G N) : Prop :=
  exists h, [/\ run_hist (@xest_update F) (xest_init F N false rec) h = Some (xd_est st),
    size (all_rows h) = size (xd_seen st), all (@filled F) h &
    forall i : 'I_N, [/\ xfin (xat (xd_numer st) i) = all (fun v => xfin (xat (mv v) i)) (xd_seen st),
       all (fun v => xfin (xat (mv v) i)) (xd_seen st) ->
         xat (xd_numer st) i = Fin (\sum_(v <- xd_seen st) fval (xat (mv v) i) * v i 0),
       xat (xd_denom st) i = Fin (\sum_(v <- xd_seen st) v i 0 ^+ 2),
       all (fun x => xfin (xat x i)) (all_rows h) = (size (xd_seen st) == 0%N) || coord_ok i (xd_seen st) &
       coord_ok i (xd_seen st) ->
       [seq fval (xat x i) | x <- all_rows h] =
       mkseq (fun k => ratio i (take k.+1 (xd_seen st))) (size (xd_seen st))]].

Lemma dinv_init g : dinv (XD (xest_init F N false rec) g (nseq N (Fin 0)) (nseq N (Fin 0)) [::]).
Proof.
exists [::]; split=> // i; rewrite /xat !nth_nseq ltn_ord /= !big_nil; split=> //.
Qed.

Lemma xfin_mulF (a : xn) (x : F) : xfin (xmul a (Fin x)) = xfin a.
Proof. by case: a => //=; rewrite /xinf_of_sign; case: ifP => // _; case: ifP. Qed.

Lemma xfin_divF (a : xn) (x : F) : xfin (xdiv a (Fin x)) = xfin a && (x != 0).
Proof. by case: a => [y|||] //=; case: eqP => //= _; rewrite /xinf_of_sign; case: ifP => // _; case: ifP. Qed.

Lemma sumsq_neq0 (i : 'I_N) (vs : seq 'cV[F]_N) : (0 < size vs)%N -> head 0 vs i 0 != 0 ->
  \sum_(v <- vs) v i 0 ^+ 2 != 0.
Proof.
case: vs => // v vs _ /= hv; rewrite big_cons; apply: lt0r_neq0; apply: ltr_paddr.
  by apply: sumr_ge0 => w _; exact: sqr_ge0.
by rewrite exprn_even_gt0.
Qed.

Lemma dinv_body st st' : dinv st -> xdiag_body mv sample st = Ok st' -> dinv st'.
Proof.
case=> h [he hsz hf hi]; rewrite /xdiag_body; case: (sample _ _) => vs g'.
set v := head 0 vs; set ve := [seq Fin (v i 0) | i <- enum 'I_N].
have hve (i : 'I_N) : xat ve i = Fin (v i 0).
  by rewrite /xat /ve (nth_map i) ?size_enum_ord // nth_ord_enum.
set row := mkseq _ N; set nu := mkseq _ N; set de := mkseq _ N.
have hnu (i : 'I_N) : xat nu i = xadd (xat (xd_numer st) i) (xmul (xat (mv v) i) (Fin (v i 0))).
  by rewrite {1}/xat nth_mkseq // hve.
have hde (i : 'I_N) : xat de i = Fin (\sum_(w <- rcons (xd_seen st) v) w i 0 ^+ 2).
  have [_ _ hd _ _] := hi i.
  by rewrite {1}/xat nth_mkseq // hve hd /= -cats1 big_cat big_seq1 expr2.
have hrow (i : 'I_N) : xat row i = xdiv (xat nu i) (xat de i) by rewrite {1}/xat nth_mkseq.
case E: (xest_update _ _) => [e' [ex|]] // [<-].
exists (rcons h (Arr2 N [:: row])); rewrite all_rows_rcons /= size_cat hsz size_rcons addn1.
split=> //; first by elim: h (xest_init F N false rec) he {hsz hf hi} => [|x h IH] e0 /=; [case=> -> ; rewrite E | case: (xest_update e0 x) => e1 [] // /IH].
  by rewrite all_rcons hf.
move=> i; have [h1 h2 h3 h4 h5] := hi i.
have fn : xfin (xat nu i) = all (fun w => xfin (xat (mv w) i)) (rcons (xd_seen st) v).
  by rewrite hnu xfin_add xfin_mulF h1 all_rcons andbC.
have vn : all (fun w => xfin (xat (mv w) i)) (rcons (xd_seen st) v) ->
   xat nu i = Fin (\sum_(w <- rcons (xd_seen st) v) fval (xat (mv w) i) * w i 0).
  rewrite all_rcons => /andP[hv hs]; rewrite hnu h2 // (fvalK hv) /= -cats1 big_cat big_seq1.
  by [].
have hco : coord_ok i (rcons (xd_seen st) v) = ((size (xd_seen st) == 0%N) || coord_ok i (xd_seen st)) && xfin (xat row i).
  rewrite hrow hde xfin_divF fn /coord_ok all_rcons headI.
  case Es: (xd_seen st) => [|w ws] /=.
    by rewrite big_seq1 sqrf_eq0 andbT andbC.
  case hw: (w i 0 != 0) => //=.
  have -> : \sum_(u <- w :: rcons ws v) u i 0 ^+ 2 != 0 by apply: sumsq_neq0.
  by case: (xfin (xat (mv v) i)); rewrite ?andbT ?andbF ?andbb.
have hall : all (fun x => xfin (xat x i)) (all_rows h ++ [:: row]) = coord_ok i (rcons (xd_seen st) v).
  by rewrite all_cat /= andbT h4 hco.
split=> // hok; rewrite map_cat /mkseq -[(size (xd_seen st)).+1]addn1 iotaD map_cat; congr (_ ++ _).
  move: hok; rewrite hco => /andP[/orP[/eqP/size0nil h0|/h5 ->] _].
    by move: hsz; rewrite h0 /= => /size0nil ->.
  apply/eq_in_map => k; rewrite mem_iota add0n => /andP[_ hk]; rewrite -cats1 takel_cat //.
move: (hok); rewrite {1}/coord_ok => /andP[hhd hfin]; rewrite /= add0n hrow hde vn // /= take_oversize ?size_rcons //.
have /negbTE hne : \sum_(w <- rcons (xd_seen st) v) w i 0 ^+ 2 != 0 by apply: sumsq_neq0; rewrite ?size_rcons.
by rewrite hne.
Qed.

Lemma xdiagE fuel c g r : xdiag tppf zq mv fuel sample c rec g = Some (Ok r) ->
  exists2 st, dinv st & xcrit_call tppf zq c (xd_est st) = Ok true /\ r = (xest_estimate (xd_est st), xd_seen st).
Proof.
rewrite /xdiag eqn0Ngt N_pos /=; case E: (while_not _ _ _ _) => [[st|]|] //= [<-].
have [hi ht] := while_inv (inv := dinv) (fun s s' hs _ => @dinv_body s s' hs) (dinv_init g) E.
by exists st.
Qed.

Lemma dinv_estimate st : dinv st -> (0 < size (xd_seen st))%N -> forall i : 'I_N,
  xfin (xat (xest_estimate (xd_est st)) i) = coord_ok i (xd_seen st) /\
  (coord_ok i (xd_seen st) -> xat (xest_estimate (xd_est st)) i =
     Fin (avg (mkseq (fun k => ratio i (take k.+1 (xd_seen st))) (size (xd_seen st))))).
Proof.
case=> h [he hsz hf hi] hp i; have [_ _ _ h4 h5] := hi i.
have [hd hn _ _ _] := xrun_shape he; have [h1 h2 _ _] := C103_mean (ltn_ord i) he.
have hcl : all_finite i h = coord_ok i (xd_seen st).
  by rewrite /all_finite h4 eqn0Ngt hp /= [X in _ && X]hf andbT.
rewrite /xest_estimate hn hsz eqn0Ngt hp /= h1 hcl; split=> // hok.
by rewrite h2 ?hcl // h5.
Qed.

(* entry i of the result: the mean of the running ratios if the first probe is non-zero there and all products
   are finite there; NaN or infinite otherwise *)
Theorem C103_diag fuel c g xs probes : xdiag tppf zq mv fuel sample c rec g = Some (Ok (xs, probes)) ->
  probes <> [::] -> forall i : 'I_N,
  let ok := (head 0 probes i 0 != 0) && all (fun v => xfin (xat (mv v) i)) probes in
  xfin (xat xs i) = ok /\
  (ok -> xat xs i = Fin (avg (mkseq (fun k => ratio i (take k.+1 probes)) (size probes)))).
Proof.
case/xdiagE => st hi [_ [-> ->]] hp i; apply: dinv_estimate => //.
by rewrite lt0n size_eq0; apply/eqP.
Qed.

(* under a criterion without a count, a zero in the first probe or a non-finite product keeps diag from returning *)
Theorem C103_diag_returns fuel c g xs probes : stalls c ->
  xdiag tppf zq mv fuel sample c rec g = Some (Ok (xs, probes)) ->
  [/\ probes <> [::], forall i, head 0 probes i 0 != 0 & forall v i, v \in probes -> xfin (xat (mv v) (i : 'I_N))].
Proof.
move=> hc /xdiagE [st hi [ht [_ ->]]]; case: (hi) => h [he hsz hf hr].
have hp : xd_seen st <> [::].
  move=> h0; have h00 : h = [::].
    by move: hsz hf; rewrite h0 /=; case: (h) => //= B h'; rewrite /all_rows /filled /= size_cat; case: (size (rows_of B)).
  by rewrite h00 in he; case: he ht => <-; exact: stalls_init.
have hok i : coord_ok i (xd_seen st).
  apply/negPn/negP => hn; apply: (@C103_criteria N false rec h (xd_est st) i c) => //.
  have [_ _ _ h4 _] := hr i; rewrite has_predC h4 (negbTE hn) orbF size_eq0.
  exact/eqP.
split=> // [i|v i hv]; first by have /andP[] := hok i.
by have /andP[_ /allP ha] := hok i; exact: ha.
Qed.
End Diag.

(* on finite products and probes without zeros this is diag of ModelTrace *)
Section DiagAgrees.
Variables (G : Type) (N : nat) (A : 'M[F]_N) (sample : sampler F G N).
Hypothesis no_zero : forall g i, head 0 (sample 1%N g).1 i 0 != 0.

Definition ret_arr (r : run F G N) : seq xn :=
  match run_ret r with TScalar p | TPair p _ => pyval_x N p end.
Definition entries (v : 'cV[F]_N) : seq xn := [seq Fin (v i 0) | i <- enum 'I_N].
Definition lift_dstate (st : dstate F G N) : xdstate F G N :=
  XD (lift_est (ds_est st)) (ds_gen st) (entries (ds_numer st)) (entries (ds_denom st)) (ds_probes st).

Lemma xat_entries v (i : 'I_N) : xat (entries v) i = Fin (v i 0).
Proof. by rewrite /xat (nth_map i) ?size_enum_ord // nth_ord_enum. Qed.

Lemma mkseq_entries (f : nat -> xn) (v : 'cV[F]_N) : (forall i : 'I_N, f i = Fin (v i 0)) -> mkseq f N = entries v.
Proof.
move=> h; apply: (@eq_from_nth _ (Fin 0)); first by rewrite size_mkseq size_map size_enum_ord.
move=> i; rewrite size_mkseq => hi; rewrite nth_mkseq //.
by rewrite -[i]/(nat_of_ord (Ordinal hi)) h -[nth _ _ _]/(xat (entries v) (Ordinal hi)) xat_entries.
Qed.

Theorem C103_diag_agrees fuel c rec full callback g :
  xdiag tppf zq (fun v => entries (A *m v)) fuel sample c rec g =
  omap (rmap (fun r => (ret_arr r, run_probes r))) (diag tppf zq fuel A sample (as_crit c) full callback rec g).
Proof.
rewrite /xdiag /diag; case: eqP => [_|_]; first by case: full.
pose inv (st : dstate F G N) := [/\ shaped (ds_est st), store_dim (ms_store (ds_est st)) = N & forall i, 0 <= ds_denom st i 0].
have step s s' : inv s -> diag_body A sample callback s = Ok s' -> inv s'.
  move=> [hs hd hpos]; rewrite /diag_body; case: (sample _ _) => vs g'.
  case E: (mest_update _ _) => [e' []] // [<-]; split; first exact: shaped_update hs E.
    move: E; rewrite /mest_update; case: (as_rows _) => cols X.
    by case Es: (store_update _ _) => [s1 []] // [<-] /=; have [-> _ _] := store_update_dim Es.
  by move=> i /=; rewrite !mxE addr_ge0 // sqr_ge0.
have inv0 : inv (DState (mest_init F N false rec) g 0 0 [::] [::]).
  by split=> //; [exact: shaped_init | move=> i /=; rewrite mxE].
have -> : XD (xest_init F N false rec) g (nseq N (Fin 0)) (nseq N (Fin 0)) [::] =
    lift_dstate (DState (mest_init F N false rec) g 0 0 [::] [::]).
  rewrite /lift_dstate /= est_init_fin; have -> : nseq N (Fin 0) = entries 0; last by [].
  apply: (@eq_from_nth _ (Fin 0)); first by rewrite size_nseq size_map size_enum_ord.
  move=> i; rewrite size_nseq => hi; rewrite nth_nseq hi.
  by rewrite -[nth _ _ _]/(xat (entries 0) (Ordinal hi)) xat_entries mxE.
rewrite (while_sim (inv := inv) (test := diag_test tppf zq (as_crit c)) (body := diag_body A sample callback)) //.
- case E: (while_not _ _ _ _) => [[s|ex]|] //=.
  have [[hs hd _] _] := while_inv (inv := inv) (fun s s' hs _ => @step s s' hs) inv0 E.
  by rewrite estimate_fin // hd /ret_arr /=; case: (full || callback).
- by move=> s [hs _ _]; rewrite /= crit_fin.
move=> s [hs hd hpos]; rewrite /xdiag_body /diag_body /=; have hnz := no_zero (ds_gen s).
case: (sample _ _) hnz => vs g' /= hnz; set v := head 0 vs in hnz *.
rewrite -/(entries v).
rewrite (@mkseq_entries (fun i => xadd (xat (entries (ds_numer s)) i) (xmul (xat (entries (A *m v)) i) (xat (entries v) i)))
  (ds_numer s + \col_i ((A *m v) i 0 * v i 0))); last first.
  by move=> i; rewrite !xat_entries /=; congr Fin; rewrite [RHS]mxE; congr (_ + _); rewrite [RHS]mxE.
rewrite (@mkseq_entries (fun i => xadd (xat (entries (ds_denom s)) i) (xmul (xat (entries v) i) (xat (entries v) i)))
  (ds_denom s + \col_i (v i 0 ^+ 2))); last first.
  by move=> i; rewrite !xat_entries /=; congr Fin; rewrite [RHS]mxE; congr (_ + _); rewrite [RHS]mxE expr2.
set nu := ds_numer s + _; set de := ds_denom s + _.
rewrite (@mkseq_entries _ (\col_i (nu i 0 / de i 0))); last first.
  move=> i; rewrite !xat_entries /= mxE; have -> : (de i 0 == 0) = false; last by [].
  apply/negbTE/lt0r_neq0; rewrite /de !mxE ltr_paddl //.
  by rewrite exprn_even_gt0 //= hnz.
have -> : entries (\col_i (nu i 0 / de i 0)) = [seq Fin x | x <- vdiv nu de].
  by rewrite /entries /vdiv; elim: (enum 'I_N) => //= i l ->; rewrite mxE.
have := est_update_fin (ds_est s) (Arr2 N [:: vdiv nu de]); rewrite [arr_fin _]/= => ->.
by case: (mest_update _ _) => e' [].
Qed.
End DiagAgrees.
End C103.

(* ---- concrete cases ------------------------------------------------------------------------------------ *)
Section Examples.
Variable F : rcfType.
Variables (tppf : F -> nat -> F) (zq : F -> F).
Local Notation xn := (xnum F).

(* 1, 3 and then inf: the mean is inf; one more finite sample and it is NaN for good *)
Definition ex_hist : seq (arr xn) := [:: Arr1 [:: Fin 1; Fin 3%:R]; Arr0 PInf].
Example C103_ex_mean : exists e, run_hist (@xest_update F) (xest_init F 1 true true) ex_hist = Some e /\
  xat (xa_mu (xe_acc e)) 0 = PInf.
Proof.
case E: (run_hist _ _ _) => [e|//]; exists e; split=> //.
have [_ _ h _] := C103_mean (ltn0Sn 0) E; apply/h.
by exists [:: Arr1 [:: Fin 1; Fin 3%:R]], (Arr0 PInf).
Qed.

Definition ex_crit : bcrit F :=
  BOr (BTol (Fin (1 / 100%:R)) (Fin 0) Ord2) (BOr (BConf (19%:R / 20%:R) (Fin 1) (Fin 0)) (BKnee 1)).
Example C103_ex_criteria : exists e, run_hist (@xest_update F) (xest_init F 1 true true) ex_hist = Some e /\
  xcrit_call tppf zq ex_crit e <> Ok true.
Proof.
case E: (run_hist _ _ _) => [e|//]; exists e; split=> //.
exact: (C103_criteria (ltn0Sn 0) _ E).
Qed.

(* an operator whose quadratic form overflows *)
Definition ex_sample : sampler F unit 2 := fun k g => (nseq k (const_mx 1), g).
Example C103_ex_endless fuel r :
  xhutch tppf zq (fun=> PInf) fuel 1 ex_sample ex_crit true false tt <> Some (Ok r).
Proof. by apply: C103_endless => //= k g; rewrite size_nseq. Qed.

Example C103_ex_default : exists r,
  xhutch tppf zq (fun=> PInf) 201 1 ex_sample (bdefault F) false false tt = Some (Ok r) /\
  (~~ xfin r.1 /\ size r.2 = 200%N).
Proof.
have ss : forall k g, size (ex_sample k g).1 = k by move=> k g; rewrite size_nseq.
have [[x ps] hr] := @C103_default_ends F tppf zq unit 2 (ltn0Sn 1) (fun=> PInf) ex_sample ss 1 false false 201%N tt ltr01 (leqnn 201).
exists (x, ps); split=> //; have [h0 h1 _ h2 h3] := C103_default (ltn0Sn 1) ss hr.
have hx : ~~ xfin x by rewrite h1; case: (ps) h0.
by split=> //=; have := h3 hx; move: h2 => /=; lia.
Qed.

(* the identity and the probe (1, 0): the first entry is 1, the second is 0/0 *)
Definition ex_probe : 'cV[F]_2 := \col_i (if i == 0 then 1 else 0).
Definition ex_psample : sampler F unit 2 := fun k g => (nseq k ex_probe, g).
Example C103_ex_diag : exists xs ps,
  xdiag tppf zq (fun v => entries v) 2 ex_psample (BCount F 1) false tt = Some (Ok (xs, ps)) /\
  (xat xs 0 = Fin 1 /\ ~~ xfin (xat xs 1)).
Proof.
case E: (xdiag _ _ _ _ _ _ _ _) => [[[xs ps]|ex]|]; try by move: E; rewrite /xdiag /=.
exists xs, ps; split=> //.
have hps : ps = [:: ex_probe] by move: E; rewrite /xdiag /= => -[_ <-].
have hne : ps <> [::] by rewrite hps.
have [_ h0] := C103_diag (ltn0Sn 1) E hne (0 : 'I_2); have [h1 _] := C103_diag (ltn0Sn 1) E hne (1 : 'I_2).
have e0 : xat (entries ex_probe) (0 : 'I_2) = Fin 1 by rewrite xat_entries mxE.
have p0 : ex_probe 0 0 = 1 by rewrite mxE.
have p1 : ex_probe 1 0 = 0 by rewrite mxE.
have hd : head 0 [:: ex_probe] = ex_probe by [].
rewrite hps hd !all_seq1 e0 p0 p1 eqxx oner_eq0 in h0 h1; split; last by rewrite h1.
rewrite (h0 isT) /avg /mkseq [size _]/= [map _ _]/= big_seq1 divr1 /ratio !big_seq1.
by rewrite e0 p0 expr1n /= mulr1 divr1.
Qed.
End Examples.

Print Assumptions C103_agrees.
Print Assumptions C103_mean.
Print Assumptions C103_batching_refuted.
Print Assumptions C103_covariance.
Print Assumptions C103_criteria.
Print Assumptions C103_count.
Print Assumptions C103_hutch.
Print Assumptions C103_default.
Print Assumptions C103_default_ends.
Print Assumptions C103_endless.
Print Assumptions C103_hutch_agrees.
Print Assumptions C103_diag.
Print Assumptions C103_diag_returns.
Print Assumptions C103_diag_agrees.
