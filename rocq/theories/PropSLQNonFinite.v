(* C105: stochastic Lanczos quadrature with infinite and NaN samples. *)
From Coq Require Import String.
From mathcomp Require Import all_ssreflect all_algebra zify ring.
From Verif Require Import Base Spec ModelStats LemStats PropStats ModelEstimators LemEstimators LemEst2
  PropEstimators ModelTyping ModelRandom ModelTrace LemTrace PropTrace.
From Verif Require Import ModelXtrace LemXtrace ModelLanczos LemLanczos SpecLanczos LemLanczos2 LemLanczos3 LemLanczos4
  ModelTqli ModelQuadrature ModelSpecial ModelOperators SpecTridiag SpecQuad SpecOperators LemSpectral LemQuad PropQuad
  PropOperators LemOperators LemOperators2 PropMatFun PropMatFun2 PropMatFun3 ModelSLQ PropSLQ.
From Verif Require Import ModelNonFinite LemNonFinite LemNonFinite2 PropNonFinite ModelSLQNonFinite.
Set Implicit Arguments.
Unset Strict Implicit.
Unset Printing Implicit Defensive.
Import Order.TTheory GRing.Theory Num.Theory.
Local Open Scope ring_scope.

Section P.
Variable F : rcfType.
Variable G : Type.
Variables (tppf : F -> nat -> F) (zq : F -> F).
Variables (eps : F) (fexp flog : F -> F) (feps : F).
Variable lv : seq F -> seq F -> res (seq F).
Variable lp : seq F -> seq F -> res (seq F * seq (seq F)).
Variable N : nat.
Variable A : 'M[F]_N.
Variables (kd : okind) (dA : dty).
Local Notation xn := (xnum F).
Implicit Types (g : G) (c : bcrit F).

Local Notation mf_quad1 := (mf_quad1 eps lv lp A kd dA).
Local Notation mf_quad := (mf_quad eps lv lp A kd dA).
Local Notation xslq := (@xslq F G tppf zq eps lv lp N A kd dA).
Local Notation xslq_body := (@xslq_body F G eps lv lp N A kd dA).
Local Notation xslq_loop := (@xslq_loop F G tppf zq N).
Local Notation slq := (@slq F G tppf zq eps lv lp N A kd dA).
Local Notation slq_body := (@slq_body F G eps lv lp N A kd dA).

(* ---- one call of quad on several columns --------------------------------------------------- *)
Lemma quad_catE M X Y ys M1 : mf_quad M X = (Ret ys, M1) ->
  mf_quad M (X ++ Y) = (obnd (mf_quad M1 Y).1 (fun zs => Ret (ys ++ zs)), (mf_quad M1 Y).2).
Proof.
elim: X M ys M1 => [|x X IH] M ys M1 /=.
  by case=> <- <-; case: (mf_quad M Y) => [[]].
case E1: (mf_quad1 M x) => [[| | |y] M'] //=; case E: (mf_quad M' X) => [[| | |zs] M2] //= [<- <-].
by rewrite (IH _ _ _ E); case: (mf_quad M2 Y) => [[]].
Qed.

Lemma quad_size M X ys M1 : mf_quad M X = (Ret ys, M1) -> size ys = size X.
Proof.
elim: X M ys => [|x X IH] M ys /=; first by case=> <-.
case: (mf_quad1 M x) => [[| | |y] M'] //=; case E: (mf_quad M' X) => [[| | |zs] M2] //= [<- e2].
by rewrite e2 in E; rewrite /= (IH _ _ E).
Qed.

Lemma finitesE (ys : seq xn) : if finites ys is Some qs then ys = [seq Fin q | q <- qs] else ~~ all (@xfin F) ys.
Proof. by elim: ys => //= -[y| | |] ys //=; case: (finites ys) => [qs|] //= ->. Qed.

(* ---- finite samples ---------------------------------------------------------------------------- *)
(* where the model of finite samples (ModelSLQ) gives a result, an exception or an endless loop, so does this one *)
Theorem C105_agrees sample fuel M batch c rec full callback g :
  let o := slq fuel M batch sample (as_crit c) rec full callback g in
  o <> Some NonFin ->
  xslq fuel M batch sample c rec (full || callback) g =
  omap (fun r => obnd r (fun p => Ret (ret_num p.1, run_probes p.1, p.2))) o.
Proof.
rewrite /= /ModelSLQNonFinite.xslq /ModelSLQ.slq; case: eqP => [_ _|_]; first by case: full.
pose inv (st : sstate F G N) := shaped (lo_est (ss_loop st)) /\ store_dim (ms_store (lo_est (ss_loop st))) = 1%N.
pose up (s : sstate F G N) := XS (lift_est (lo_est (ss_loop s))) (lo_gen (ss_loop s)) (lo_probes (ss_loop s)) (ss_obj s).
have step b notify s : inv s -> slq_body sample b notify s <> NonFin ->
    xslq_body sample b (up s) = obnd (slq_body sample b notify s) (fun s => Ret (up s)) /\
    forall s', slq_body sample b notify s = Ret s' -> inv s'.
  move=> [hs hd]; rewrite /ModelSLQNonFinite.xslq_body /ModelSLQ.slq_body /=; case: (b < 0) => //.
  case: (sample _ _) => vs g'; case: (mf_quad _ _) => [[| | |ys] M'] //=.
  have := finitesE ys; case: (finites ys) => [qs ->|] //= _.
  have := est_update_fin (lo_est (ss_loop s)) (Arr1 qs); rewrite /arr_fin => ->.
  case E: (mest_update _ _) => [e' []] //=; split=> // s' [<-]; split; first exact: shaped_update hs E.
  move: E; rewrite /mest_update; case: (as_rows _) => cols X.
  by case Es: (store_update _ _) => [s1 []] // [<-] /=; have [-> _ _] := store_update_dim Es.
have sim b notify f s : inv s ->
    slq_loop tppf zq f (as_crit c) (slq_body sample b notify) s <> Some NonFin ->
    xslq_loop f c (xslq_body sample b) (up s) =
      omap (fun r => obnd r (fun s => Ret (up s))) (slq_loop tppf zq f (as_crit c) (slq_body sample b notify) s) /\
    forall s', slq_loop tppf zq f (as_crit c) (slq_body sample b notify) s = Some (Ret s') -> inv s'.
  elim: f s => [|f IH] s hi //=; have [hs _] := hi; rewrite /= crit_fin // /loop_test.
  case: (crit_call _ _ _ _) => [[]|] //=; first by move=> _; split=> // s' [<-].
  have := step b notify s hi; case: (slq_body _ _ _ _) => [| |e|s1] h1 h2; try by [case: h1|case: h1 => // ->].
  have [//|-> h3] := h1; exact: IH (h3 _ erefl) h2.
pose s0 : sstate F G N := SState (LState (mest_init F 1 true rec) g [::] [::]) M.
have inv0 : inv s0 by split=> //; exact: shaped_init.
have -> : XS (xest_init F 1 true rec) g [::] M = up s0 by rewrite /up /= est_init_fin.
have last_ s : inv s -> head NaN (xest_estimate (lift_est (lo_est (ss_loop s)))) = head NaN (pyval_x 1 (mest_estimate (lo_est (ss_loop s)))).
  by case=> hs hd; rewrite estimate_fin // hd.
rewrite -/s0; case: (full || callback).
  have := sim batch callback fuel s0 inv0.
  case: (slq_loop _ _ _ _ _ _) => [[| |e|s]|] h hn //; have [//|-> hi] := h; rewrite //=.
  by rewrite /ret_num /= last_ //; exact: hi.
have := sim 1 false fuel s0 inv0.
case: (slq_loop _ _ _ _ _ _) => [[| |e|s]|] h hn //; have [//|-> hi] := h; rewrite //=.
by rewrite /ret_num /= last_ //; exact: hi.
Qed.

(* ---- runs ----------------------------------------------------------------------------------------- *)
Section Run.
Hypothesis n0 : (0 < N)%N.
Variable sample : sampler F G N.
Hypothesis sample_size : forall k g, size (sample k g).1 = k.
Variables (M0 : mfobj F) (batch : int) (rec many : bool).
Let b : int := if many then batch else 1.

(* the state after the samples ys: they are those of one call of quad on all probes *)
Definition sinv (st : xsstate F G N) (ys : seq xn) : Prop :=
  mf_quad M0 [seq colseq v | v <- xs_probes st] = (Ret ys, xs_obj st) /\
  exists h, [/\ run_hist (@xest_update F) (xest_init F 1 true rec) h = Some (xs_est st),
    all_rows h = [seq [:: y] | y <- ys], all (@filled F) h & b = 0 -> h = [::]].

Lemma sinv_size st ys : sinv st ys -> size ys = size (xs_probes st).
Proof. by case=> /quad_size; rewrite size_map. Qed.

Lemma sinv_init g : sinv (XS (xest_init F 1 true rec) g [::] M0) [::].
Proof. by split=> //; exists [::]. Qed.

Lemma sinv_body st st' ys : sinv st ys -> xslq_body sample b st = Ret st' ->
  exists zs, sinv st' (ys ++ zs) /\ size zs = `|b|%N.
Proof.
case=> hq [h [he hr hf hb]]; rewrite /ModelSLQNonFinite.xslq_body; case: ifP => // bpos.
have := sample_size `|b|%N (xs_gen st); case: (sample _ _) => vs g' /= hs.
case Eq: (mf_quad _ _) => [[| | |zs] M'] //; case E: (xest_update _ _) => [e' [ex|]] // [<-].
have sz := quad_size Eq; rewrite size_map in sz; exists zs; split; last by rewrite sz.
split; first by rewrite /= map_cat (quad_catE _ hq) Eq.
exists (rcons h (Arr1 zs)) => /=.
have b0 : b <> 0.
  move=> b0; move: sz; rewrite hs b0 => /size0nil hv; move: E; rewrite hv.
  have h0 := hb b0; rewrite h0 in he; case: he => <- /=.
  by rewrite /xest_update /xacc_update /=.
split=> //; first exact: xrun_snoc he E.
  by rewrite all_rows_rcons hr map_cat /rows_of.
by rewrite all_rcons hf andbT /filled /rows_of /= size_map sz hs; lia.
Qed.

Lemma sinv_estimate st ys : sinv st ys -> (0 < size ys)%N ->
  let x := head NaN (xest_estimate (xs_est st)) in
  [/\ xfin x = all (@xfin F) ys, all (@xfin F) ys -> x = Fin (avg [seq fval y | y <- ys]) &
      all (@is_nan F) ys -> x = NaN].
Proof.
case=> hq [h [he hr hf hb]] hp; have [hd hn _ _ _] := xrun_shape he.
have [h1 h2 h3 h4] := C103_mean (ltn0Sn 0) he.
have hcl : all_finite 0 h = all (@xfin F) ys.
  by rewrite /all_finite hr all_map [X in _ && X]hf andbT.
have szm : size (xa_mu (xe_acc (xs_est st))) = 1%N.
  case/lastP: h he hr {hf hb hd hn h1 h2 h3 h4 hcl} => [|h B] he hr; first by case: ys hp hr {hq}.
  case/xrun_rcons: he => e0 he0 /xest_updateE [/xacc_updateE [_ _ ->] _ _ _].
  by have [-> _ _ _ _] := xrun_shape he0; rewrite size_mkseq.
rewrite /xest_estimate hn hr size_map eqn0Ngt hp /=.
have -> : head NaN (xa_mu (xe_acc (xs_est st))) = xat (xa_mu (xe_acc (xs_est st))) 0.
  by case: (xa_mu _) szm.
rewrite -hcl; split=> //; first by move=> /h2 ->; congr Fin; rewrite hr -map_comp.
move=> hN; have hno (inf : pred xn) : (forall x, is_nan x -> ~~ inf x) -> ~ last_batch inf 0 h.
  move=> hi [h1' [B [eh _ _ hh]]]; have : all (fun r => is_nan (xat r 0)) (all_rows h) by rewrite hr all_map.
  rewrite eh all_rows_rcons all_cat => /andP[_ ha].
  have : all (predC (fun r => inf (xat r 0))) (rows_of B) by apply: sub_all ha => r; exact: hi.
  by rewrite all_predC hh.
have hf0 : ~~ all (@xfin F) ys by clear -hp hN; case: ys hp hN => //= -[].
move: h1 h3 h4; rewrite hcl (negbTE hf0); case: (xat _ 0) => [y| | |] // _ h3 h4.
  by case: (hno (@is_pinf F)); [case|exact/h3].
by case: (hno (@is_ninf F)); [case|exact/h4].
Qed.

Lemma sinv_empty st : sinv st [::] -> xs_est st = xest_init F 1 true rec.
Proof.
case=> _ [h [he hr hf _]].
have h00 : h = [::] by case: h hr hf {he} => //= B h; rewrite /all_rows /filled /=; case: (rows_of B).
by rewrite h00 in he; case: he.
Qed.

Lemma xslqE fuel c g x ps M' : xslq fuel M0 batch sample c rec many g = Some (Ret (x, ps, M')) ->
  exists2 st, xslq_loop fuel c (xslq_body sample b) (XS (xest_init F 1 true rec) g [::] M0) = Some (Ret st) &
    [/\ x = head NaN (xest_estimate (xs_est st)), ps = xs_probes st & M' = xs_obj st].
Proof.
rewrite /ModelSLQNonFinite.xslq eqn0Ngt n0 /=; case: (xslq_loop _ _ _ _) => [[| | |st]|] //= [<- <- <-].
by exists st.
Qed.

(* a property of the state and of the samples so far that every round keeps *)
Lemma loop_inv (inv : xsstate F G N -> seq xn -> Prop) fuel c st st' ys :
  (forall s s' ys zs, inv s ys -> xcrit_call tppf zq c (xs_est s) = Ok false -> xslq_body sample b s = Ret s' ->
     sinv s ys -> sinv s' (ys ++ zs) -> size zs = `|b|%N -> inv s' (ys ++ zs)) ->
  sinv st ys -> inv st ys -> xslq_loop fuel c (xslq_body sample b) st = Some (Ret st') ->
  exists zs, [/\ sinv st' (ys ++ zs), inv st' (ys ++ zs) & xcrit_call tppf zq c (xs_est st') = Ok true].
Proof.
move=> hI; elim: fuel st ys => [//|f IH] st ys hs hi /=.
case Ec: (xcrit_call _ _ _ _) => [[]|] //; first by case=> <-; exists [::]; rewrite cats0.
case Eb: (xslq_body _ _ _) => [| | |s1] // h1; have [zs [h2 h3]] := sinv_body hs Eb.
have [zs' [h4 h5 h6]] := IH s1 (ys ++ zs) h2 (hI _ _ _ _ hi Ec Eb hs h2 h3) h1.
by exists (zs ++ zs'); rewrite catA.
Qed.

(* a run that returns has drawn the probes one batch after the other; its samples are those of one call of quad
   on all of them (each on the object the previous one left behind).  The number is finite exactly if every sample
   was, and then it is their mean *)
Theorem C105_mean fuel c g x ps M' : xslq fuel M0 batch sample c rec many g = Some (Ret (x, ps, M')) ->
  exists ys, [/\ mf_quad M0 [seq colseq v | v <- ps] = (Ret ys, M'), size ys = size ps,
    (0 < size ps)%N -> xfin x = all (@xfin F) ys &
    (0 < size ps)%N -> all (@xfin F) ys -> x = Fin (avg [seq fval y | y <- ys])].
Proof.
case/xslqE => st hw [-> -> ->].
have [ys [hs _ _]] := loop_inv (inv := fun _ _ => True) (fun _ _ _ _ _ _ _ _ _ _ => I) (sinv_init g) I hw.
exists ys; have sz := sinv_size hs; split=> //; first by case: hs.
  by rewrite -sz => hp; case: (sinv_estimate hs hp).
by rewrite -sz => hp; case: (sinv_estimate hs hp).
Qed.

(* under a criterion without a count (`stalls`) it has seen finite samples only, and returns their mean *)
Theorem C105_finite fuel c g x ps M' : stalls c ->
  xslq fuel M0 batch sample c rec many g = Some (Ret (x, ps, M')) ->
  exists ys, [/\ mf_quad M0 [seq colseq v | v <- ps] = (Ret ys, M'), (0 < size ps)%N, all (@xfin F) ys &
    x = Fin (avg [seq fval y | y <- ys])].
Proof.
move=> hc /xslqE [st hw [-> -> ->]].
have [ys [hs _ ht]] := loop_inv (inv := fun _ _ => True) (fun _ _ _ _ _ _ _ _ _ _ => I) (sinv_init g) I hw.
exists ys; have sz := sinv_size hs; rewrite cat0s in hs sz.
have hp : (0 < size ys)%N.
  rewrite lt0n; apply/eqP => /size0nil h0; rewrite h0 in hs; move: ht; rewrite (sinv_empty hs).
  exact: stalls_init (ltn0Sn 0) hc.
have hall : all (@xfin F) ys.
  apply/negPn/negP => hn; case: (hs) => _ [h [he hr _ _]]; apply: (@C103_criteria F tppf zq 1 true rec h (xs_est st) 0 c) => //.
  by rewrite hr has_map; move: hn; rewrite -has_predC.
have [_ hx _] := sinv_estimate hs hp; split=> //; [by case: hs|by rewrite -sz|exact: hx].
Qed.

Lemma sdefault_ok st ys : sinv st ys -> exists o, xcrit_call tppf zq (bdefault F) (xs_est st) = Ok (o || (200 <= size ys)%N) /\
  (o -> all (@xfin F) ys /\ (0 < size ys)%N).
Proof.
move=> hi; case: (hi) => _ [h [he hr hf hb]]; have [hd _ hn hS _] := xrun_shape he.
pose cc := BConf (19%:R / 20%:R : F) (Fin 1) (Fin 0).
have [o ho] : exists o, xcrit_call tppf zq cc (xs_est st) = Ok o.
  rewrite /= /xconf_call; case: ifP => _; first by exists false.
  by case: (xa_S _) hS => // S0 _; rewrite hd /=; eexists.
exists o; split.
  rewrite /bdefault -/cc [xcrit_call _ _ _ _]/= -[xconf_call _ _ _ _ _ _]/(xcrit_call tppf zq cc (xs_est st)) ho /= hn hr size_map orbC.
  by congr (Ok (_ || _)); lia.
move=> o1; rewrite o1 in ho; split.
  apply/negPn/negP => hx; apply: (@C103_criteria F tppf zq 1 true rec h (xs_est st) 0 cc) => //.
  by rewrite hr has_map; move: hx; rewrite -has_predC.
rewrite lt0n; apply/eqP => /size0nil h0; rewrite h0 in hi; move: ho; rewrite (sinv_empty hi).
exact: stalls_init (ltn0Sn 0) _.
Qed.

(* under the default criterion a run that meets an infinite or NaN sample ends with the batch that reaches
   200 samples *)
Theorem C105_default fuel g x ps M' :
  xslq fuel M0 batch sample (bdefault F) rec many g = Some (Ret (x, ps, M')) ->
  (0 < size ps < 200 + `|b|)%N /\ (~~ xfin x -> (200 <= size ps)%N).
Proof.
move=> /xslqE [st hw [-> -> _]].
have b0 : b <> 0.
  move=> b0; move: hw; case: fuel => //= f; rewrite /xconf_call /= /ModelSLQNonFinite.xslq_body.
  have := sample_size `|b|%N g; rewrite b0 /=; case: (sample _ _) => vs g' /= /size0nil ->.
  by rewrite /= /xest_update /xacc_update.
pose inv (s : xsstate F G N) (ys : seq xn) := (size ys < 200 + `|b|)%N.
have hstep s s' ys zs : inv s ys -> xcrit_call tppf zq (bdefault F) (xs_est s) = Ok false -> xslq_body sample b s = Ret s' ->
     sinv s ys -> sinv s' (ys ++ zs) -> size zs = `|b|%N -> inv s' (ys ++ zs).
  move=> _ ht _ hs _ hz; have [o [ho _]] := sdefault_ok hs; move: ht; rewrite ho => -[/norP[_]]; rewrite -ltnNge => h200.
  by rewrite /inv size_cat hz ltn_add2r.
have inv0 : inv (XS (xest_init F 1 true rec) g [::] M0) [::] by rewrite /inv /=; clear -b0; lia.
have [ys [hs hi ht]] := loop_inv hstep (sinv_init g) inv0 hw; rewrite cat0s in hs hi.
have sz := sinv_size hs; rewrite /inv in hi; rewrite -sz.
have [o [ho1 ho2]] := sdefault_ok hs; rewrite ho1 in ht; case: ht => ht.
have hp : (0 < size ys)%N by case/orP: ht => [/ho2 [] //|]; case: (size _).
have [hf _ _] := sinv_estimate hs hp; rewrite hp hi; split=> //.
by rewrite hf => hn; case/orP: ht => // /ho2 [ha]; rewrite ha in hn.
Qed.

(* such a run does end, provided quad returns some number for every probe *)
Lemma default_ends (P : mfobj F -> Prop) (adm : 'cV[F]_N -> Prop) fuel g :
  P M0 -> (forall M v, P M -> adm v -> exists y M', mf_quad1 M (colseq v) = (Ret y, M') /\ P M') ->
  (forall k g v, v \in (sample k g).1 -> adm v) -> (0 < b) -> (200 < fuel)%N ->
  exists x ps M', xslq fuel M0 batch sample (bdefault F) rec many g = Some (Ret (x, ps, M')).
Proof.
move=> P0 hq had hb hf; rewrite /ModelSLQNonFinite.xslq eqn0Ngt n0 /= -/b.
have quads M vs : P M -> (forall v, v \in vs -> adm v) -> exists ys M', mf_quad M [seq colseq v | v <- vs] = (Ret ys, M') /\ P M'.
  elim: vs M => [|v vs IH] M hM hv /=; first by exists [::], M.
  have [y [M1 [-> h1]]] := hq M v hM (hv v (mem_head _ _)).
  have [|ys [M2 [-> h2]]] := IH M1 h1; last by exists (y :: ys), M2.
  by move=> w hw; apply: hv; rewrite inE hw orbT.
suff loop : forall f st ys, sinv st ys -> P (xs_obj st) -> (0 < f)%N -> (200 < f + size ys)%N ->
    exists st', xslq_loop f (bdefault F) (xslq_body sample b) st = Some (Ret st').
  have [||st' ->] := loop fuel _ _ (sinv_init g) P0; rewrite ?addn0 //; first by apply: leq_trans hf.
  by do 3 eexists.
elim=> [//|f IH] st ys hi hP _ hs; have [o [ho _]] := sdefault_ok hi; cbn [ModelSLQNonFinite.xslq_loop]; rewrite ho.
case: (boolP (o || _)) => [_|/norP[_]]; first by exists st.
rewrite -ltnNge => h200.
have [st' [hbody hP']] : exists st', xslq_body sample b st = Ret st' /\ P (xs_obj st').
  rewrite /ModelSLQNonFinite.xslq_body ltNge (ltW hb) /=; have := sample_size `|b|%N (xs_gen st).
  have := had `|b|%N (xs_gen st); case: (sample _ _) => vs g' /= hv hsz.
  have [zs [M1 [Eq h1]]] := quads _ _ hP hv; rewrite Eq.
  have sz := quad_size Eq; rewrite size_map hsz in sz.
  case: (hi) => _ [h [he hr _ _]]; have [hd hn _ _ _] := xrun_shape he.
  have hX : (size [seq [:: x] | x <- zs] == 0)%N = false by rewrite size_map sz; move: hb; clear; lia.
  rewrite /xest_update /xacc_update /= hd /= addn_eq0 hX andbF /=.
  by eexists.
rewrite hbody; have [zs [h1 h2]] := sinv_body hi hbody; apply: (IH _ _ h1) => //.
  by move: hs h200; clear; lia.
by rewrite size_cat; move: hs h2 hb; clear; lia.
Qed.
End Run.

(* ---- probes that are eigenvectors ------------------------------------------------------------------- *)
Section Eigenvector.
Hypothesis lapack : lapack_ok lv lp.
Hypothesis eps0 : 0 <= eps.
Hypothesis n0 : (0 < N)%N.
Local Notation built := (built fexp flog feps N kd).

Lemma aorth0 tl ncv V p i : aorth tl ncv V p i (0 : 'cV[F]_N) = 0.
Proof. by elim: p i => //= p IH i; rewrite dt0l mul0r scale0r subr0 if_same IH. Qed.

(* the kernel stops after one step, whatever it is told to orthogonalise against *)
Lemma lanczos_eigvec M (v : 'cV[F]_N) (l : F) : mf_wf N M -> mf_live kd M -> v != 0 -> A *m v = l *: v ->
  mf_lanczos eps A kd dA M (colseq v) = Ret (mf_after A M (colseq v) 1).
Proof.
move=> W [hd hm] v0 Av; have [bd [e1 e2 e3]] := mf_resolve_ok kd dA hd.
rewrite /mf_lanczos e1 (e3 _ hm); have /andP[d0 dn] := wf_deg W.
suff -> : lanczos_recurrence eps A (colseq v) (mf_deg M)%:Z (mf_rtol F) (mf_orth M) (mf_alpha M) (mf_beta M) (mf_Q M) (mf_deg M) =
    Some (kfinal A v 1 (mf_deg M) (mf_alpha M) (mf_beta M) (mf_Q M)).
  by rewrite e2 /mf_after -[cvec N _]/(vec N _) vec_colseq.
pose st0 := ASt v (nth 0 (mf_alpha M)) (nth 0 (mf_beta M)) (colv N (mf_Q M)).
have := @kernel_conc F N A eps (mf_rtol F) (mf_deg M) (mf_orth M) (mf_deg M) (size (mf_alpha M)) (size (mf_beta M)) st0 d0.
rewrite /= !mkseq_nth flat_colv ?(wf_Q W) // (wf_al W) (wf_be W) => ->; [|by clear -d0; lia|by []|by []].
set u := start v; have uu : dt u u = 1 by exact: start_unit.
have Au : A *m u = l *: u by rewrite /u /start -scalemxAr Av !scalerA mulrC.
have tol0 : 0 < Num.sqrt N%:R * mf_rtol F :> F by exact: tol_gt0.
rewrite /akernel -[X in aloop _ _ _ _ _ _ X](prednK d0) aloopS /astep /aresid /= unitvE -/u.
rewrite /upd /= scale0r subr0 Au dtZr uu mulr1 subrr /areorth aorth0 dt0l sqrtr0 tol0 /=.
rewrite /conc /kfinal /= -/u.
have a0 : la A u 0 = l by rewrite laE lq0 lb0 scale0r subr0 Au dtZr uu mulr1.
have r0 : lr A u 0 = 0 by rewrite lrE a0 lq0 lb0 scale0r subr0 Au subrr.
have b1 : lb A u 1 = 0 by rewrite lbS r0; apply/eqP; rewrite vnorm_eq0.
rewrite r0 (wf_al W) (wf_be W); congr (Some (KSt _ _ _ _)).
- by apply: mkseq_ext => -[|i] //=; rewrite a0.
- by apply: mkseq_ext => -[|[|i]] //=; rewrite b1.
apply: flatV_ext => -[|i] hi //=; by rewrite /slot /= subn0.
Qed.

(* the object between two such calls: nothing but alpha[0] has been written *)
Definition one_step (M0 M : mfobj F) : Prop :=
  [/\ mf_wf N M, mf_live kd M, mf_deg M = mf_deg M0 /\ mf_fun M = mf_fun M0,
      forall i, (0 < i)%N -> (mf_alpha M)`_i = 0 & forall i, (mf_beta M)`_i = 0].

Lemma one_step0 M0 : built M0 -> one_step M0 M0.
Proof.
move=> B; have [W L _] := built_ok eps0 n0 B; have [o [f [kw [deg [orth [d [sq E _ _]]]]]]] := B.
have [_ _ [ea eb] _ _] := C62_fields sq E.
by split=> // i; rewrite ?ea ?eb nth_nseq if_same.
Qed.

Lemma quad_eigvec M0 M (v : 'cV[F]_N) (l : F) (f : F -> xn) : one_step M0 M -> (1 < mf_deg M0)%N ->
  xapplies (mf_fun M0) f -> ~~ xfin (f 0) -> v != 0 -> A *m v = l *: v -> l != 0 ->
  exists M', mf_quad1 M (colseq v) = (Ret NaN, M') /\ one_step M0 M'.
Proof.
move=> [W L [ed ef] ha hb] d2 hf f0 v0 Av l0.
have EL := lanczos_eigvec W L v0 Av; have W' := after_wf A (colseq v) 1 W; have /andP[d0 _] := wf_deg W.
set M' := mf_after A M (colseq v) 1 in EL W'; set u := start (cvec N (colseq v)).
have uv : cvec N (colseq v) = v by exact: vec_colseq.
have uu : dt u u = 1 by rewrite /u uv; exact: start_unit.
have Au : A *m u = l *: u by rewrite /u uv /start -scalemxAr Av !scalerA mulrC.
have a0 : la A u 0 = l by rewrite laE lq0 lb0 scale0r subr0 Au dtZr uu mulr1.
have b1 : lb A u 1 = 0.
  by rewrite lbS lrE a0 lq0 lb0 scale0r subr0 Au subrr; apply/eqP; rewrite vnorm_eq0.
have al0 : (mf_alpha M')`_0 = l by rewrite /= nth_mkseq ?(wf_al W).
have al i : (0 < i)%N -> (mf_alpha M')`_i = 0.
  move=> i0; have [h|h] := ltnP i (size (mf_alpha M)); last by rewrite nth_default // size_mkseq.
  by rewrite /= nth_mkseq // ltnNge i0 /= ha.
have be i : (mf_beta M')`_i = 0.
  have [h|h] := ltnP i (size (mf_beta M)); last by rewrite nth_default // size_mkseq.
  by rewrite /= nth_mkseq // -/u; case: i h => [|[|i]] h //=; rewrite hb.
have [w [Y [[_ eig] E]]] := quad1_eval lapack eps0 n0 EL W' (be 0%N) (size_colseq v).
have [sw sY aY _ _] := eig.
have sy : size (nth [::] Y 0) = mf_deg M by move/allP: aY => /(_ _ (mem_nth _ _))/eqP -> //; rewrite sY.
have [j [wj yj]] : exists j : 'I_(mf_deg M), w`_j = 0 /\ (nth [::] Y 0)`_j = 0.
  apply: (@pad_kernel F eps eps0 1 (mf_deg M) 1 l%:M 1%:M (nth 0 (mf_alpha M')) (nth 0 (mf_beta M')) (fun _ => l) (fun _ => 0) w Y (Ordinal d0)) => //.
  - by rewrite unitmxE det_scalar1 unitfE.
  - by rewrite trmx1 mulmx1.
  - by rewrite mulmx1 mul1mx; apply/matrixP => i k; rewrite !mxE !ord1.
  - by rewrite ed.
  - by case.
  - by move=> i i1; rewrite be al.
set v' := quad_value _ _ _ _ _ in E; suff vE : v' = Ret NaN.
  rewrite vE in E; eexists; split; first exact: E.
  by split=> //; case: W' => *; split=> //=; rewrite ?size_map ?sw ?sy.
rewrite /v' /quad_value -[mf_fun M']/(mf_fun M) ef hf /np_mul !size_map sw sy eqxx (@PropMatFun2.xsum_nan _ _ j) //.
  by rewrite size_map size_zip !size_map sw sy minnn.
rewrite (nth_map (Fin 0, Fin 0)) ?size_zip ?size_map ?sw ?sy ?minnn // nth_zip ?size_map ?sw ?sy //=.
rewrite !(nth_map 0) ?sw ?sy // wj yj expr0n /=.
by case: (f 0) f0 => //= _; rewrite ?oppr0 /xinf_of_sign eqxx.
Qed.

(* A = l I, l <> 0, and a function that is not finite at 0: whatever the nonzero probes, every sample is NaN *)
Theorem C105_scalar_refuted (sample : sampler F G N) M0 (l : F) (f : F -> xn) (batch : int) (rec many : bool) g :
  A = l%:M -> l != 0 -> (1 < N)%N -> built M0 -> xapplies (mf_fun M0) f -> ~~ xfin (f 0) ->
  (forall k g, size (sample k g).1 = k) -> (forall k g v, v \in (sample k g).1 -> v != 0) ->
  (0 < (if many then batch else 1)) ->
  (exists x ps M', xslq 201 M0 batch sample (bdefault F) rec many g = Some (Ret (x, ps, M'))) /\
  (forall fuel x ps M', xslq fuel M0 batch sample (bdefault F) rec many g = Some (Ret (x, ps, M')) ->
     x = NaN /\ (200 <= size ps)%N) /\
  (forall c fuel r, stalls c -> xslq fuel M0 batch sample c rec many g <> Some (Ret r)).
Proof.
move=> EA l0 n2 B hf f0 hsz hv hb.
have d2 : (1 < mf_deg M0)%N.
  have [o [h [kw [deg [orth [d [sq E _ _]]]]]]] := B.
  have [_ dg _] := (C62_accepts_iff fexp flog feps o h kw deg orth d).1 (ex_intro _ M0 E).
  by have [[_ dd] _ _ _ _] := C62_fields sq E; clear -dd dg n2; lia.
have hq M (v : 'cV[F]_N) : one_step M0 M -> v != 0 -> exists M', mf_quad1 M (colseq v) = (Ret NaN, M') /\ one_step M0 M'.
  by move=> hM v0; apply: (quad_eigvec hM d2 hf f0 v0 _ l0); rewrite EA mul_scalar_mx.
have quads M vs : one_step M0 M -> (forall v : 'cV[F]_N, v \in vs -> v != 0) ->
    exists M', mf_quad M [seq colseq v | v <- vs] = (Ret (nseq (size vs) NaN), M') /\ one_step M0 M'.
  elim: vs M => [|v vs IH] M hM hvs /=; first by exists M.
  have [M1 [-> h1]] := hq M v hM (hvs v (mem_head _ _)).
  have [|M2 [-> h2]] := IH M1 h1; last by exists M2.
  by move=> w hw; apply: hvs; rewrite inE hw orbT.
have nan c fuel x ps M' : xslq fuel M0 batch sample c rec many g = Some (Ret (x, ps, M')) -> (0 < size ps)%N -> x = NaN.
  move=> /(xslqE n0) [st hw [-> -> _]].
  pose inv (s : xsstate F G N) ys := all (@is_nan F) ys /\ one_step M0 (xs_obj s).
  have [||ys [hs [hn _] _]] := loop_inv n0 hsz (inv := inv) _ (sinv_init M0 batch rec many g) _ hw.
  - move=> s s' ys zs [i1 i2] _ hbody hs hs' _; move: hbody; rewrite /ModelSLQNonFinite.xslq_body; case: ifP => // _.
    have := hv `| if many then batch else 1 |%N (xs_gen s); case: (sample _ _) => vs g' /= hvs.
    have [M1 [Eq h1]] := quads _ _ i2 hvs; rewrite Eq; case: (xest_update _ _) => e' [] // [es].
    have [hq1 _] := hs; have [hq2 _] := hs'; move: hq2; rewrite -es /= map_cat (quad_catE _ hq1) Eq /= => -[<-].
    by split=> //=; rewrite all_cat i1 all_nseq orbT.
  - by split=> //; exact: one_step0.
  rewrite cat0s in hs hn; have sz := sinv_size hs; rewrite -sz => hp.
  by have [_ _ ->] := sinv_estimate hs hp.
split; first by apply: (@default_ends n0 sample hsz M0 batch rec many (one_step M0) (fun v => v != 0)) => //; [exact: one_step0|move=> M v hM v0; have [M' ?] := hq M v hM v0; exists NaN, M'].
split=> [fuel x ps M' E|c fuel [[x ps] M'] hc E].
  have [/andP[hp _] h2] := C105_default n0 hsz E; have xE := nan _ _ _ _ _ E hp.
  by split=> //; apply: h2; rewrite xE.
have [ys [_ hp _ xE]] := C105_finite n0 hsz hc E.
by have := nan _ _ _ _ _ E hp; rewrite xE.
Qed.
End Eigenvector.

(* ---- the default criterion always ends the run --------------------------------------------------------- *)
Theorem C105_default_ends (sample : sampler F G N) M0 (f : F -> xn) (batch : int) (rec many : bool) fuel g :
  lapack_ok lv lp -> 0 <= eps -> (0 < N)%N -> A^T = A -> built fexp flog feps N kd M0 -> mf_orth M0 <= 2 ->
  xapplies (mf_fun M0) f -> (forall k g, size (sample k g).1 = k) ->
  0 < (if many then batch else 1) -> (200 < fuel)%N ->
  exists x ps M', xslq fuel M0 batch sample (bdefault F) rec many g = Some (Ret (x, ps, M')).
Proof.
move=> lapack eps0 n0 sA B o2 hf hsz hb hfu.
apply: (@default_ends n0 sample hsz M0 batch rec many (after_calls eps lv lp A kd dA M0) (fun _ => True)) => //.
  by exists [::].
move=> M v C _; have [W L S] := calls_ok eps0 n0 B C; have K := unstale_ok eps0 n0 B C (or_intror o2).
have /andP[d0 dn] := wf_deg W; have sx := size_colseq v.
have [s hs] := @stop_exists F N A (start (cvec N (colseq v))) (Num.sqrt N%:R * mf_rtol F) (mf_deg M) d0.
have [w [Y [[_ eig] E]]] := quad1_run lapack eps0 n0 sA dA W L K sx hs.
have [sw sY aY _ _] := eig; case: S => -[e1 e2] _ _ _ _; rewrite -e2 in hf.
have sy : size (nth [::] Y 0) = mf_deg M by move/allP: aY => /(_ _ (mem_nth _ _))/eqP -> //; rewrite sY.
have [y Ey] : exists y, quad_value N M (colseq v) w (nth [::] Y 0) = Ret y.
  by rewrite /quad_value hf /np_mul !size_map sw sy eqxx; eexists.
rewrite Ey in E; do 2 eexists; split; first exact: E.
case: C => h C; exists (h ++ [:: CQuad [:: colseq v]]).
by rewrite run_cat C /= E.
Qed.
(* ---- matrices with few eigenvalues ------------------------------------------------------------------------ *)
Lemma jac_pow_top k (d e : nat -> F) (i0 : 'I_k) m (j : 'I_k) : i0 = 0%N :> nat -> (forall i, (0 < i < k)%N -> e i != 0) ->
  j = m :> nat -> (mxpow (jacobi k d e) m *m (delta_mx i0 0 : 'cV[F]_k)) j 0 != 0.
Proof.
move=> h0 he; elim: m j => [|m IH] j hj /=.
  by rewrite mul1mx mxE -val_eqE /= h0 hj eqxx oner_eq0.
have jk := ltn_ord j; have mk : (m < k)%N by rewrite -hj in jk *; apply: leq_trans jk; rewrite hj.
rewrite -mulmxA mxE (bigD1 (Ordinal mk)) //= big1 ?addr0 => [|l hl].
  rewrite mulf_neq0 ?(IH (Ordinal mk)) // mxE /= hj.
  rewrite (gtn_eqF (ltnSn m)) (gtn_eqF (ltnW (ltnSn m.+1))) eqxx.
  by apply: he; rewrite /= -hj.
have hl' : (l : nat) <> m by move=> e'; case/eqP: hl; apply: val_inj.
have [h|h] := ltnP m l; first by rewrite jac_pow_low // mulr0.
by rewrite mxE; do !case: eqP => //; rewrite ?mul0r //; move: hj h hl'; clear; lia.
Qed.

(* an annihilating polynomial of degree m: the recurrence breaks down within m steps *)
Lemma breakdown (u : 'cV[F]_N) (p : {poly F}) m : A^T = A -> dt u u = 1 -> size p = m.+1 -> polymx p A = 0 ->
  exists2 i, (0 < i <= m)%N & lb A u i = 0.
Proof.
move=> sA uu sp pA.
have [/hasP[i hi /eqP li]|/hasPn h] := boolP (has (fun i => lb A u i == 0) (iota 1 m)).
  by exists i => //; move: hi; rewrite mem_iota; clear; lia.
have ub : unbroken A u m.+1 by move=> i hi; apply: h; rewrite mem_iota; move: hi; clear; lia.
pose i0 : 'I_m.+1 := ord0; have QQ := QTQ sA uu ub.
have AQ (j : 'I_m.+1) : A *m col j (Qm A u m.+1) = Qm A u m.+1 *m col j (jacobi m.+1 (la A u) (lb A u)) + (j.+1 == m.+1)%:R *: lr A u m.
  rewrite (A_Qm ub); congr (_ + _); case: eqP => [[->]//|_]; by rewrite !scale0r.
have := krylov_fun AQ (erefl : i0 = 0%N :> nat) (p := p); rewrite sp leqnn => /(_ isT).
rewrite pA mul0mx => /(congr1 (mulmx (Qm A u m.+1)^T)); rewrite mulmx0 mulmxA QQ mul1mx.
move=> /colP/(_ ord_max); rewrite [LHS]mxE /polymx sp mulmx_suml summxE big_ord_recr /= big1 ?add0r => [|i _]; last first.
  by rewrite -scalemxAl mxE jac_pow_low ?mulr0 //= ltn_ord.
rewrite -scalemxAl mxE => /esym/eqP; rewrite mulf_eq0.
have -> : (p`_m == 0) = false.
  have := lead_coefE p; rewrite sp /= => <-; apply/negbTE; rewrite lead_coef_eq0 -size_poly_eq0 sp //.
by rewrite (negbTE (jac_pow_top _ (erefl : i0 = 0%N :> nat) ub (erefl : ord_max = m :> nat))).
Qed.

Lemma zero_node k (d e : nat -> F) w Y : (0 < k)%N -> d k.-1 = 0 -> e k.-1 = 0 -> is_eigh (jacobi k d e) w Y ->
  exists j : 'I_k, w`_j = 0.
Proof.
move=> k0 dk ek [sw sY aY oY eY]; have kp : (k.-1 < k)%N by rewrite prednK.
pose u : 'cV[F]_k := delta_mx (Ordinal kp) 0; have Tu : jacobi k d e *m u = 0.
  rewrite -colE; apply/colP => i; rewrite !mxE /=; have hi := ltn_ord i.
  case: eqP => [->//|ne]; case: eqP => [_|_]; first by rewrite ek.
  by case: eqP => // h; move: h hi; clear; lia.
have oY' := mulmx1C oY.
pose c := (rows_mx k k Y)^T *m u; have c0 : c != 0.
  apply/eqP => c0; have : rows_mx k k Y *m c = u by rewrite mulmxA oY' mul1mx.
  rewrite c0 mulmx0 => /colP/(_ (Ordinal kp)); rewrite !mxE !eqxx /= => /eqP.
  by rewrite eq_sym oner_eq0.
have Dc : diag_mx (\row_j w`_j) *m c = 0.
  have -> : diag_mx (\row_j w`_j) = (rows_mx k k Y)^T *m (jacobi k d e *m rows_mx k k Y) by rewrite eY mulmxA oY mul1mx.
  by rewrite /c -!mulmxA (mulmxA (rows_mx k k Y)) oY' mul1mx Tu mulmx0.
clearbody c; case/cV0Pn: c0 => j cj; exists j; move/colP: Dc => /(_ j); rewrite mul_diag_mx !mxE => /eqP.
by rewrite mulf_eq0 (negbTE cj) orbF => /eqP.
Qed.

Lemma xsum_nonfin (s : seq xn) j : (j < size s)%N -> ~~ xfin (nth (Fin 0) s j) -> ~~ xfin (ModelQuadrature.xsum s).
Proof.
have hadd (a b : xn) : ~~ xfin a || ~~ xfin b -> ~~ xfin (xadd a b) by case: a; case: b.
elim: s j => [//|y s IH] [|j] /= hj h; first by apply: hadd; rewrite h.
by apply: hadd; rewrite (IH j hj h) orbT.
Qed.

(* if every sample is infinite or NaN, so is what the default criterion lets hutch return; a criterion without
   a count never ends the loop *)
Lemma all_bad (sample : sampler F G N) M0 (batch : int) (rec many : bool) g (P : mfobj F -> Prop) :
  (0 < N)%N -> P M0 ->
  (forall M (v : 'cV[F]_N), P M -> v != 0 -> exists y M', [/\ mf_quad1 M (colseq v) = (Ret y, M'), ~~ xfin y & P M']) ->
  (forall k g, size (sample k g).1 = k) -> (forall k g v, v \in (sample k g).1 -> v != 0) ->
  (0 < (if many then batch else 1)) ->
  (exists x ps M', xslq 201 M0 batch sample (bdefault F) rec many g = Some (Ret (x, ps, M'))) /\
  (forall fuel x ps M', xslq fuel M0 batch sample (bdefault F) rec many g = Some (Ret (x, ps, M')) ->
     ~~ xfin x /\ (200 <= size ps)%N) /\
  (forall c fuel r, stalls c -> xslq fuel M0 batch sample c rec many g <> Some (Ret r)).
Proof.
move=> n0 P0 hq hsz hv hb.
have quads M vs : P M -> (forall v : 'cV[F]_N, v \in vs -> v != 0) ->
    exists ys M', [/\ mf_quad M [seq colseq v | v <- vs] = (Ret ys, M'), all (fun y => ~~ xfin y) ys & P M'].
  elim: vs M => [|v vs IH] M hM hvs /=; first by exists [::], M.
  have [y [M1 [-> hy h1]]] := hq M v hM (hvs v (mem_head _ _)).
  have [|ys [M2 [-> hys h2]]] := IH M1 h1; last by exists (y :: ys), M2; rewrite /= hy.
  by move=> w hw; apply: hvs; rewrite inE hw orbT.
have bad c fuel x ps M' : xslq fuel M0 batch sample c rec many g = Some (Ret (x, ps, M')) -> (0 < size ps)%N -> ~~ xfin x.
  move=> /(xslqE n0) [st hw [-> -> _]].
  pose inv (s : xsstate F G N) ys := all (fun y : xn => ~~ xfin y) ys /\ P (xs_obj s).
  have [||ys [hs [hn _] _]] := loop_inv n0 hsz (inv := inv) _ (sinv_init M0 batch rec many g) _ hw.
  - move=> s s' ys zs [i1 i2] _ hbody hs hs' _; move: hbody; rewrite /ModelSLQNonFinite.xslq_body; case: ifP => // _.
    have := hv `| if many then batch else 1 |%N (xs_gen s); case: (sample _ _) => vs g' /= hvs.
    have [zs' [M1 [Eq hz h1]]] := quads _ _ i2 hvs; rewrite Eq; case: (xest_update _ _) => e' [] // [es].
    have [hq1 _] := hs; have [hq2 _] := hs'; move: hq2; rewrite -es /= map_cat (quad_catE _ hq1) Eq /= => -[<-].
    by split=> //=; rewrite all_cat i1.
  - by split.
  rewrite cat0s in hs hn; have sz := sinv_size hs; rewrite -sz => hp.
  have [-> _ _] := sinv_estimate hs hp; clear -hp hn; case: ys hp hn => //= y ys _ /andP[/negbTE -> _] //.
split.
  apply: (@default_ends n0 sample hsz M0 batch rec many P (fun v => v != 0)) => // M v hM v0.
  by have [y [M' [? _ ?]]] := hq M v hM v0; exists y, M'.
split=> [fuel x ps M' E|c fuel [[x ps] M'] hc E].
  have [/andP[hp _] h2] := C105_default n0 hsz E; have xE := bad _ _ _ _ _ E hp.
  by split=> //; apply: h2.
have [ys [_ hp _ xE]] := C105_finite n0 hsz hc E.
by have := bad _ _ _ _ _ E hp; rewrite xE.
Qed.

(* fewer than deg different eigenvalues (p annihilates A, m < deg), and a function that is not finite at 0:
   every sample is infinite or NaN, whether or not 0 is an eigenvalue of A *)
Theorem C105_few_refuted (sample : sampler F G N) M0 (p : {poly F}) m (f : F -> xn) (batch : int) (rec many : bool) g :
  lapack_ok lv lp -> 0 <= eps -> (0 < N)%N -> A^T = A -> built fexp flog feps N kd M0 -> mf_orth M0 <= 2 ->
  size p = m.+1 -> polymx p A = 0 -> (m < mf_deg M0)%N -> xapplies (mf_fun M0) f -> ~~ xfin (f 0) ->
  (forall k g, size (sample k g).1 = k) -> (forall k g v, v \in (sample k g).1 -> v != 0) ->
  (0 < (if many then batch else 1)) ->
  (exists x ps M', xslq 201 M0 batch sample (bdefault F) rec many g = Some (Ret (x, ps, M'))) /\
  (forall fuel x ps M', xslq fuel M0 batch sample (bdefault F) rec many g = Some (Ret (x, ps, M')) ->
     ~~ xfin x /\ (200 <= size ps)%N) /\
  (forall c fuel r, stalls c -> xslq fuel M0 batch sample c rec many g <> Some (Ret r)).
Proof.
move=> lapack eps0 n0 sA B o2 sp pA md hf f0 hsz hv hb.
pose P M := after_calls eps lv lp A kd dA M0 M /\ forall i, (m <= i)%N -> (mf_alpha M)`_i = 0 /\ (mf_beta M)`_i = 0.
apply: (@all_bad sample M0 batch rec many g P) => //.
  split; first by exists [::].
  have [o [h [kw [deg [orth [d [sq E _ _]]]]]]] := B.
  by have [_ _ [ea eb] _ _] := C62_fields sq E => i _; rewrite ea eb !nth_nseq !if_same.
move=> M v [C Z] v0; have [W L S] := calls_ok eps0 n0 B C; have K := unstale_ok eps0 n0 B C (or_intror o2).
have /andP[d0 dn] := wf_deg W; have sx := size_colseq v.
have uv : cvec N (colseq v) = v by exact: vec_colseq.
have [s hs] := @stop_exists F N A (start (cvec N (colseq v))) (Num.sqrt N%:R * mf_rtol F) (mf_deg M) d0.
have uu : dt (start v) (start v) = 1 by exact: start_unit.
have [i /andP[i1 im] li] := breakdown sA uu sp pA.
have ub := stop_ub n0 hs; rewrite uv in ub.
have si : (s <= i)%N by rewrite leqNgt; apply/negP => si; have := ub i; rewrite i1 si li eqxx => /(_ isT).
have [w [Y [[_ eig] E]]] := quad1_run lapack eps0 n0 sA dA W L K sx hs.
have [sw sY aY _ _] := eig; case: S => -[e1 e2] e3 _ _ _; rewrite -e2 in hf; rewrite -e3 in md.
have sy : size (nth [::] Y 0) = mf_deg M by move/allP: aY => /(_ _ (mem_nth _ _))/eqP -> //; rewrite sY.
set M' := mf_after A M (colseq v) s in eig E.
have Z' i' : (m <= i')%N -> (mf_alpha M')`_i' = 0 /\ (mf_beta M')`_i' = 0.
  move=> hi; have [za zb] := Z i' hi; split.
    have [h|h] := ltnP i' (size (mf_alpha M)); last by rewrite nth_default // size_mkseq.
    by rewrite /= nth_mkseq // ltnNge (leq_trans si (leq_trans im hi)) /= za.
  have [h|h] := ltnP i' (size (mf_beta M)); last by rewrite nth_default // size_mkseq.
  rewrite /= nth_mkseq // uv; case: ifP => // h2; have -> // : i' = i by move: h2 si im hi; clear; lia.
have md' : (m <= (mf_deg M).-1)%N by move: md; clear; lia.
have [z1 z2] := Z' _ md'; have [j wj] := zero_node d0 z1 z2 eig.
have [y Ey hy] : exists2 y, quad_value N M (colseq v) w (nth [::] Y 0) = Ret y & ~~ xfin y.
  rewrite /quad_value hf /np_mul !size_map sw sy eqxx; eexists; first by [].
  set l := [seq xmul _ _ | _ <- _]; have hl : ~~ xfin (ModelQuadrature.xsum l).
    apply: (@xsum_nonfin _ j); rewrite /l; first by rewrite size_map size_zip !size_map sw sy minnn.
    rewrite (nth_map (Fin 0, Fin 0)) ?size_zip ?size_map ?sw ?sy ?minnn // nth_zip ?size_map ?sw ?sy //=.
    rewrite !(nth_map 0) ?sw ?sy // wj; case: (f 0) f0 => //= _; rewrite /xinf_of_sign; do 2 case: ifP => // _.
  case: (ModelQuadrature.xsum l) hl => //= _; rewrite /xinf_of_sign; do 2 case: ifP => // _.
rewrite Ey in E; do 2 eexists; split; [exact: E|exact: hy|split; last by move=> i' /Z'].
case: C => h C; exists (h ++ [:: CQuad [:: colseq v]]).
by rewrite run_cat C /= E.
Qed.
End P.

Section Ex.
Variable F : rcfType.
Variables (G : Type) (tppf : F -> nat -> F) (zq : F -> F) (eps : F) (fexp flog : F -> F) (feps : F).
Hypothesis eps0 : 0 <= eps.

(* MatrixFunction(2 I, "inv") with the default deg = 20 and orth = 3, in three dimensions: the trace of the
   inverse is 3/2, hutch with the default criterion returns NaN *)
Example C105_ex (sample : sampler F G 3) (dA : dty) g :
  (forall k g, size (sample k g).1 = k) -> (forall k g v, v \in (sample k g).1 -> v != 0) ->
  let A : 'M[F]_3 := (2%:R)%:M in
  exists M0, [/\ mf_init fexp flog feps (sq_array 3) (MStr "inv") (no_kw F) 20 3 F64 = Ok M0,
    \tr (invmx A) = 3%:R / 2%:R,
    exists x ps M', xslq tppf zq eps (@ref_vals F) (@ref_pairs F) A KDense dA 201 M0 1 sample (bdefault F) false false g = Some (Ret (x, ps, M')) &
    forall fuel x ps M', xslq tppf zq eps (@ref_vals F) (@ref_pairs F) A KDense dA fuel M0 1 sample (bdefault F) false false g = Some (Ret (x, ps, M')) ->
      x = NaN /\ (200 <= size ps)%N].
Proof.
move=> hsz hv A; have [_ h] := C62_accepts_iff fexp flog feps (sq_array 3) (MStr "inv") (no_kw F) 20 3 F64.
have sq : square_shape (sq_array 3) 3 by exists [::].
have [|M0 E] := h.
  by split=> //; [left|exists 3%N; split=> //=; right; right; right; right; left].
have B : built fexp flog feps 3 KDense M0 by exists (sq_array 3), (MStr "inv"), (no_kw F), 20, 3, F64; split=> //; right.
have hf : xapplies (mf_fun M0) (@xinv F).
  have [_ _ _ _ [_ [_ [q [Eq hq]]]]] := C62_fields sq E; case: Eq => Eq xs.
  by rewrite hq -Eq.
have two : (2%:R : F) != 0 by rewrite pnatr_eq0.
have f0 : ~~ xfin (xinv (0 : F)) by rewrite /xinv /= eqxx /xinf_of_sign oner_eq0 ltr01.
have [h1 [h2 _]] := @C105_scalar_refuted F G tppf zq eps fexp flog feps (@ref_vals F) (@ref_pairs F) 3 A KDense dA (@ref_ok F)
  eps0 isT sample M0 2%:R (@xinv F) 1 false false g erefl two isT B hf f0 hsz hv isT.
exists M0; split=> //.
by rewrite /A invmx_scalar mxtrace_scalar mulr_natl.
Qed.

(* MatrixFunction(diag(1, 2, 2), "inv", orth = 2): the trace of the inverse is 2, every estimate is infinite or NaN *)
Example C105_few_ex (sample : sampler F G 3) (dA : dty) g :
  (forall k g, size (sample k g).1 = k) -> (forall k g v, v \in (sample k g).1 -> v != 0) ->
  let A : 'M[F]_3 := diag_mx (\row_j (if j == 0 then 1 else 2%:R)) in
  exists M0, [/\ mf_init fexp flog feps (sq_array 3) (MStr "inv") (no_kw F) 20 2 F64 = Ok M0,
    \tr (invmx A) = 2%:R,
    exists x ps M', xslq tppf zq eps (@ref_vals F) (@ref_pairs F) A KDense dA 201 M0 1 sample (bdefault F) false false g = Some (Ret (x, ps, M')) &
    forall fuel x ps M', xslq tppf zq eps (@ref_vals F) (@ref_pairs F) A KDense dA fuel M0 1 sample (bdefault F) false false g = Some (Ret (x, ps, M')) ->
      ~~ xfin x /\ (200 <= size ps)%N].
Proof.
move=> hsz hv A; have [_ h] := C62_accepts_iff fexp flog feps (sq_array 3) (MStr "inv") (no_kw F) 20 2 F64.
have sq : square_shape (sq_array 3) 3 by exists [::].
have [|M0 E] := h.
  by split=> //; [left|exists 3%N; split=> //=; right; right; right; right; left].
have B : built fexp flog feps 3 KDense M0 by exists (sq_array 3), (MStr "inv"), (no_kw F), 20, 2, F64; split=> //; right.
have [[_ dg] [_ [ho _]] _ _ [_ [_ [q [Eq hq]]]]] := C62_fields sq E.
have hf : xapplies (mf_fun M0) (@xinv F) by case: Eq => Eq xs; rewrite hq -Eq.
have d3 : mf_deg M0 = 3%N by move: dg; clear; lia.
have o2 : mf_orth M0 <= 2 by rewrite ho ?d3.
have two : (2%:R : F) != 0 by rewrite pnatr_eq0.
have f0 : ~~ xfin (xinv (0 : F)) by rewrite /xinv /= eqxx /xinf_of_sign oner_eq0 ltr01.
pose p : {poly F} := ('X - 1%:P) * ('X - (2%:R)%:P).
have sp : size p = 3%N by rewrite size_Mmonic ?monicXsubC ?polyXsubC_eq0 // !size_XsubC.
have pA : polymx p A = 0.
  have -> : polymx p A = 1%:M *m diag_mx (\row_j p.[(\row_j (if j == 0 then 1 else 2%:R) : 'rV[F]_3) 0 j]) *m 1%:M^T.
    by apply: polymx_eig; rewrite ?trmx1 ?mulmx1 ?mul1mx.
  rewrite trmx1 mulmx1 mul1mx (_ : \row_j _ = 0) ?raddf0 //.
  by apply/rowP => j; rewrite !mxE /p hornerM !hornerE; case: ifP => _; rewrite subrr ?mul0r ?mulr0.
have [h1 [h2 _]] := @C105_few_refuted F G tppf zq eps fexp flog feps (@ref_vals F) (@ref_pairs F) 3 A KDense dA
  sample M0 p 2 (@xinv F) 1 false false g (@ref_ok F) eps0 isT (tr_diag_mx _) B o2 sp pA ltac:(by rewrite d3) hf f0 hsz hv isT.
exists M0; split=> //.
pose D : 'M[F]_3 := diag_mx (\row_j (if j == 0 then 1 else 2%:R^-1)).
have AD : D *m A = 1%:M.
  rewrite /D /A mulmx_diag; apply/matrixP => i j; rewrite !mxE; case: ifP => _; rewrite ?mulr1 ?mulVf //.
have uA : A \in unitmx by case: (mulmx1_unit AD).
have -> : invmx A = D by rewrite -[D](mulmxK uA) AD mul1mx.
rewrite mxtrace_diag !big_ord_recl big_ord0 !mxE /=; by field.
Qed.
End Ex.

Print Assumptions C105_agrees.
Print Assumptions C105_mean.
Print Assumptions C105_finite.
Print Assumptions C105_default.
Print Assumptions C105_default_ends.
Print Assumptions C105_scalar_refuted.
Print Assumptions C105_ex.
Print Assumptions C105_few_refuted.
Print Assumptions C105_few_ex.
