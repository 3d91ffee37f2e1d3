(* Lemmas on the estimators with infinite or NaN samples (ModelNonFinite). *)
From mathcomp Require Import all_ssreflect all_algebra zify ring.
From Verif Require Import Base Spec ModelStats ModelEstimators LemEstimators ModelTrace ModelNonFinite.
Set Implicit Arguments.
Unset Strict Implicit.
Unset Printing Implicit Defensive.
Import Order.TTheory GRing.Theory Num.Theory.
Local Open Scope ring_scope.

Section Num.
Variable F : rcfType.
Local Notation xn := (xnum F).
Implicit Types (x y : xn) (s : seq xn).

Definition is_pinf x : bool := if x is PInf then true else false.
Definition is_ninf x : bool := if x is NInf then true else false.
Definition is_nan x : bool := if x is NaN then true else false.
(* the number behind a finite value *)
Definition fval x : F := if x is Fin a then a else 0.

Lemma fvalK x : xfin x -> x = Fin (fval x). Proof. by case: x. Qed.
Lemma is_nanP x : is_nan x -> x = NaN. Proof. by case: x. Qed.

Lemma xfin_add x y : xfin (xadd x y) = xfin x && xfin y.
Proof. by case: x => [a|||]; case: y. Qed.

Lemma xfin_opp x : xfin (xopp x) = xfin x. Proof. by case: x. Qed.
Lemma xfin_sub x y : xfin (xsub x y) = xfin x && xfin y.
Proof. by rewrite /xsub xfin_add xfin_opp. Qed.

Lemma xfin_sum s : xfin (xsum s) = all (@xfin F) s.
Proof. by elim: s => //= x s IH; rewrite xfin_add IH. Qed.

Lemma xsum_val s : all (@xfin F) s -> xsum s = Fin (\sum_(x <- s) fval x).
Proof.
elim: s => [|x s IH] /=; rewrite ?big_nil // big_cons => /andP[hx /IH ->].
by case: x hx.
Qed.

Lemma sub_fin s (p : pred xn) : all (@xfin F) s -> all (fun x => xfin x || p x) s.
Proof. by apply: sub_all => x ->. Qed.

Lemma is_pinf_sum s : is_pinf (xsum s) = all (fun x => xfin x || is_pinf x) s && ~~ all (@xfin F) s.
Proof.
elim: s => //= x s IH; have hf := xfin_sum s; have hs := @sub_fin s is_pinf.
move: IH hf hs; case: (xsum s) => [b|||] /=; case: x => [a|||] //=; case: (all (@xfin F) s) => //=;
  rewrite ?andbT //; by [move=> _ _ -> | move=> <- | move=> /esym ->].
Qed.

Lemma is_ninf_sum s : is_ninf (xsum s) = all (fun x => xfin x || is_ninf x) s && ~~ all (@xfin F) s.
Proof.
elim: s => //= x s IH; have hf := xfin_sum s; have hs := @sub_fin s is_ninf.
move: IH hf hs; case: (xsum s) => [b|||] /=; case: x => [a|||] //=; case: (all (@xfin F) s) => //=;
  rewrite ?andbT //; by [move=> _ _ -> | move=> <- | move=> /esym ->].
Qed.

(* one division by a positive number *)
Lemma xdiv_pos x (a : F) : 0 < a ->
  [/\ xfin (xdiv x (Fin a)) = xfin x, is_pinf (xdiv x (Fin a)) = is_pinf x,
      is_ninf (xdiv x (Fin a)) = is_ninf x & fval (xdiv x (Fin a)) = fval x / a].
Proof.
move=> ha; have hn := lt0r_neq0 ha; case: x => [b|||] /=; rewrite ?(negbTE hn) ?mul0r //=.
  by rewrite /xinf_of_sign (negbTE hn) ha.
by rewrite /xinf_of_sign oppr_eq0 (negbTE hn) oppr_gt0 ltNge (ltW ha).
Qed.

(* mu + w * (bm - mu) for w > 0 *)
Lemma xmix (mu bm : xn) (w : F) : 0 < w ->
  xadd mu (xmul (Fin w) (xsub bm mu)) =
  match mu, bm with
  | Fin m, Fin c => Fin (m + w * (c - m))
  | Fin _, _ => bm
  | _, _ => NaN
  end.
Proof.
move=> hw; have hn := lt0r_neq0 hw.
have hp : xinf_of_sign w = PInf by rewrite /xinf_of_sign (negbTE hn) hw.
have hm : xinf_of_sign (- w) = NInf.
  by rewrite /xinf_of_sign oppr_eq0 (negbTE hn) oppr_gt0 ltNge (ltW hw).
by case: mu => [m|||]; case: bm => [c|||] //=; rewrite ?hp ?hm.
Qed.

Lemma xnan_mul x : xmul x NaN = NaN. Proof. by case: x. Qed.
Lemma xnan_add x : xadd x NaN = NaN. Proof. by case: x. Qed.
Lemma xnan_mull x : xmul NaN x = NaN. Proof. by case: x. Qed.
Lemma xnan_addl x : xadd NaN x = NaN. Proof. by case: x. Qed.

Lemma xsum_nan s i : (i < size s)%N -> nth (Fin 0) s i = NaN -> xsum s = NaN.
Proof.
elim: s i => [//|x s IH] [|i] /= hi; first by move->; case: (xsum s).
by move=> h; rewrite (IH i) // xnan_add.
Qed.
End Num.

Section Acc.
Variable F : rcfType.
Local Notation xn := (xnum F).
Implicit Types (a : xacc F) (e : xest F) (X : seq (seq xn)) (B : arr xn) (h : seq (arr xn)).

(* column i of a list of rows *)
Definition xcol X (i : nat) : seq xn := [seq xat x i | x <- X].
Definition filled B : bool := (0 < size (rows_of B))%N.

Lemma xbatch_fin X i : (0 < size X)%N ->
  [/\ xfin (xbatch_mean X i) = all (@xfin F) (xcol X i),
      is_pinf (xbatch_mean X i) = all (fun x => xfin x || is_pinf x) (xcol X i) && ~~ all (@xfin F) (xcol X i),
      is_ninf (xbatch_mean X i) = all (fun x => xfin x || is_ninf x) (xcol X i) && ~~ all (@xfin F) (xcol X i) &
      all (@xfin F) (xcol X i) -> xbatch_mean X i = Fin ((\sum_(x <- xcol X i) fval x) / (size X)%:R)].
Proof.
move=> hX; have hp : 0 < (size X)%:R :> F by rewrite ltr0n.
have [h1 h2 h3 _] := xdiv_pos (xsum (xcol X i)) hp.
rewrite /xbatch_mean -/(xcol X i) h1 h2 h3 xfin_sum is_pinf_sum is_ninf_sum; split=> // hf.
by rewrite xsum_val //= (negbTE (lt0r_neq0 hp)).
Qed.

Lemma xbatch_nil i : xbatch_mean ([::] : seq (seq xn)) i = NaN.
Proof. by rewrite /xbatch_mean /= eqxx /xinf_of_sign eqxx. Qed.

Lemma xmu_stepE dim n mu X i : (i < dim)%N -> (0 < size X)%N ->
  xat (xmu_step dim n mu X) i =
  match xat mu i, xbatch_mean X i with
  | Fin m, Fin c => Fin (m + (size X)%:R / (n + size X)%:R * (c - m))
  | Fin _, b => b
  | _, _ => NaN
  end.
Proof.
move=> hi hX; rewrite /xmu_step {1}/xat nth_mkseq // /xdelta_mean xmix; first by case: (xat mu i) => [m|||]; case: (xbatch_mean X i).
by rewrite divr_gt0 ?ltr0n // ltn_addl.
Qed.

Lemma xmu_step_nil dim n (mu : seq xn) i : (i < dim)%N -> xat (xmu_step dim n mu [::]) i = NaN.
Proof. by move=> hi; rewrite /xmu_step {1}/xat nth_mkseq // /xdelta_mean xbatch_nil /xsub xnan_addl xnan_mul xnan_add. Qed.

Lemma xacc_updateE a B a' : xacc_update a B = (a', None) ->
  [/\ cols_of B = xa_dim a, (0 < xa_n a + size (rows_of B))%N &
      a' = XAcc (xa_dim a) (xa_n a + size (rows_of B)) (xmu_step (xa_dim a) (xa_n a) (xa_mu a) (rows_of B))
            (omap (fun S0 => xS_step (xa_dim a) (xa_n a) (xa_mu a) S0 (rows_of B)) (xa_S a))].
Proof.
rewrite /xacc_update /cols_of /rows_of; case: (as_rows B) => cols X /=.
by case: eqP => // ->; case: eqP => //= /eqP hn [<-]; rewrite lt0n.
Qed.

Lemma xest_updateE e B e' : xest_update e B = (e', None) ->
  [/\ xacc_update (xe_acc e) B = (xe_acc e', None), xe_n e' = (xe_n e + size (rows_of B))%N,
      xe_delta e' = mkseq (fun i => xsub (xat (xa_mu (xe_acc e')) i) (xat (xa_mu (xe_acc e)) i)) (xa_dim (xe_acc e')) &
      xe_values e' = omap (fun vs => vs ++ rows_of B) (xe_values e)].
Proof.
rewrite /xest_update /rows_of.
have -> : xacc_update (xe_acc e) B = xacc_update (xe_acc e) (Arr2 (as_rows B).1 (as_rows B).2).
  by rewrite /xacc_update /=; case: (as_rows B).
by case: (as_rows B) => cols X; case: (xacc_update _ _) => a [] //= [<-] /=; split=> //; case: (xe_values e).
Qed.

Lemma xrun_rcons dim c r h B e' : run_hist (@xest_update F) (xest_init F dim c r) (rcons h B) = Some e' ->
  exists2 e, run_hist (@xest_update F) (xest_init F dim c r) h = Some e & xest_update e B = (e', None).
Proof.
elim: h (xest_init F dim c r) => [|b h IH] e /=.
  by case E: (xest_update e B) => [e1 [x|]] // [<-]; exists e.
by case: (xest_update e b) => [e1 [x|]] // /IH.
Qed.

(* what every accepted history leaves behind *)
Lemma xrun_shape dim c r h e : run_hist (@xest_update F) (xest_init F dim c r) h = Some e ->
  [/\ xa_dim (xe_acc e) = dim, xa_n (xe_acc e) = size (all_rows h), xe_n e = size (all_rows h),
      isSome (xa_S (xe_acc e)) = c & xe_values e = if r then Some (all_rows h) else None].
Proof.
elim/last_ind: h e => [|h B IH] e'; first by case=> <-; split=> //=; case: c.
case/xrun_rcons => e /IH [h1 h2 h3 h4 h5] /xest_updateE [/xacc_updateE [_ _ ->] -> _ ->] /=.
rewrite h1 h2 h3 h5 /all_rows map_rcons flatten_rcons size_cat; split=> //; last by case: r {IH h5}.
by move: h4; case: (xa_S _).
Qed.

Lemma all_rows_rcons h B : all_rows (rcons h B) = all_rows h ++ rows_of B.
Proof. by rewrite /all_rows map_rcons flatten_rcons. Qed.

Lemma xcol_cat X Y i : xcol (X ++ Y) i = xcol X i ++ xcol Y i.
Proof. by rewrite /xcol map_cat. Qed.

(* nothing infinite, NaN or empty so far in column i *)
Definition clean h (i : nat) : bool := all (@xfin F) (xcol (all_rows h) i) && all filled h.

Lemma clean_rcons h B i :
  clean (rcons h B) i = [&& clean h i, filled B & all (@xfin F) (xcol (rows_of B) i)].
Proof.
rewrite /clean all_rows_rcons xcol_cat all_cat all_rcons.
by case: (all _ (xcol (all_rows h) i)) => //=; case: (filled B) => /=; rewrite ?andbF // andbC.
Qed.

Lemma xrun_mean dim c r h e i : (i < dim)%N -> run_hist (@xest_update F) (xest_init F dim c r) h = Some e ->
  xfin (xat (xa_mu (xe_acc e)) i) = clean h i /\
  (clean h i -> xat (xa_mu (xe_acc e)) i = Fin (avg [seq fval x | x <- xcol (all_rows h) i])).
Proof.
move=> hi; elim/last_ind: h e => [|h B IH] e'.
  case=> <-; rewrite /xat /= nth_nseq hi; split=> // _.
  by rewrite /avg /= big_nil mul0r.
case/xrun_rcons => e he; have [hd hn _ _ _] := xrun_shape he; have [IH1 IH2] := IH e he.
case/xest_updateE => /xacc_updateE [_ hpos ->] _ _ _; rewrite hd hn clean_rcons.
case hB: (filled B) => /=; last first.
  move/negbT: hB; rewrite /filled -eqn0Ngt => /eqP/size0nil ->.
  by rewrite xmu_step_nil // andbF.
have [hf _ _ hv] := xbatch_fin i hB; rewrite xmu_stepE // -IH1.
case E: (xat (xa_mu (xe_acc e)) i) IH1 IH2 => [m|||] //= hc /(_ (esym hc)) [->].
case Eb: (xbatch_mean (rows_of B) i) hf hv => [x|||] //= <- // /(_ erefl) [->]; split=> // _.
congr Fin; rewrite all_rows_rcons xcol_cat map_cat /avg size_cat !size_map big_cat /= !big_map.
have hb : (size (rows_of B))%:R != 0 :> F by rewrite pnatr_eq0 -lt0n.
have hs : (size (all_rows h) + size (rows_of B))%:R != 0 :> F by rewrite pnatr_eq0 -lt0n -hn.
case: (posnP (size (all_rows h))) => [/size0nil -> |hp].
  by rewrite /= !big_nil mul0r subr0 !add0r divff // mul1r.
have hh : (size (all_rows h))%:R != 0 :> F by rewrite pnatr_eq0 -lt0n.
rewrite natrD in hs *; move: (\sum_(j <- all_rows h) _) (\sum_(j <- rows_of B) _) hb hs hh => p q.
by move: (size (rows_of B))%:R (size (all_rows h))%:R => u v hb hs hh; field; rewrite hb hs hh.
Qed.

Lemma xrun_pinf dim c r h B e i : (i < dim)%N ->
  run_hist (@xest_update F) (xest_init F dim c r) (rcons h B) = Some e ->
  is_pinf (xat (xa_mu (xe_acc e)) i) = [&& clean h i, filled B,
     all (fun x => xfin x || is_pinf x) (xcol (rows_of B) i) & ~~ all (@xfin F) (xcol (rows_of B) i)].
Proof.
move=> hi /xrun_rcons [e1 he]; have [hd hn _ _ _] := xrun_shape he; have [IH1 _] := xrun_mean hi he.
case/xest_updateE => /xacc_updateE [_ hpos ->] _ _ _; rewrite hd hn.
case hB: (filled B) => /=; last first.
  move/negbT: hB; rewrite /filled -eqn0Ngt => /eqP/size0nil ->.
  by rewrite xmu_step_nil // andbF.
have [_ hf _ _] := xbatch_fin i hB; rewrite xmu_stepE // -IH1 -hf.
by case: (xat (xa_mu (xe_acc e1)) i) => [m|||] //=; case: (xbatch_mean _ _).
Qed.

Lemma xrun_ninf dim c r h B e i : (i < dim)%N ->
  run_hist (@xest_update F) (xest_init F dim c r) (rcons h B) = Some e ->
  is_ninf (xat (xa_mu (xe_acc e)) i) = [&& clean h i, filled B,
     all (fun x => xfin x || is_ninf x) (xcol (rows_of B) i) & ~~ all (@xfin F) (xcol (rows_of B) i)].
Proof.
move=> hi /xrun_rcons [e1 he]; have [hd hn _ _ _] := xrun_shape he; have [IH1 _] := xrun_mean hi he.
case/xest_updateE => /xacc_updateE [_ hpos ->] _ _ _; rewrite hd hn.
case hB: (filled B) => /=; last first.
  move/negbT: hB; rewrite /filled -eqn0Ngt => /eqP/size0nil ->.
  by rewrite xmu_step_nil // andbF.
have [_ _ hf _] := xbatch_fin i hB; rewrite xmu_stepE // -IH1 -hf.
by case: (xat (xa_mu (xe_acc e1)) i) => [m|||] //=; case: (xbatch_mean _ _).
Qed.

(* the change of the mean is not a number, or infinite, as well *)
Lemma xrun_delta dim c r h B e i : (i < dim)%N ->
  run_hist (@xest_update F) (xest_init F dim c r) (rcons h B) = Some e ->
  size (xe_delta e) = dim /\ xfin (xat (xe_delta e) i) = clean (rcons h B) i.
Proof.
move=> hi hr; have [hd _ _ _ _] := xrun_shape hr; have [hm _] := xrun_mean hi hr.
case/xrun_rcons: (hr) => e1 he; have [hm1 _] := xrun_mean hi he.
case/xest_updateE => _ _ -> _; rewrite size_mkseq hd {1}/xat nth_mkseq // xfin_sub hm hm1; split=> //.
by rewrite clean_rcons; case: (clean h i); rewrite ?andbT ?andbF.
Qed.

Lemma xsub_own_mean X i k : (k < size X)%N -> ~~ xfin (nth (Fin 0) (xcol X i) k) ->
  xsub (nth (Fin 0) (xcol X i) k) (xbatch_mean X i) = NaN.
Proof.
move=> hk hx; have hX : (0 < size X)%N by apply: leq_ltn_trans hk.
have [h1 h2 h3 _] := xbatch_fin i hX.
have hs : (k < size (xcol X i))%N by rewrite size_map.
have hnf : all (@xfin F) (xcol X i) = false.
  by apply/negbTE/negP => /(all_nthP (Fin 0)) h; move: hx; rewrite (h k hs).
move: h1 h2 h3; rewrite hnf !andbT.
case E: (nth _ _ _) hx => [y|||] // _; case: (xbatch_mean X i) => [z|||] //= _.
- by move=> _ /esym /(all_nthP (Fin 0)) /(_ k hs); rewrite E.
- by move=> /esym /(all_nthP (Fin 0)) /(_ k hs); rewrite E.
Qed.

Lemma xfin_mul (x y : xn) : xfin x -> xfin y -> xfin (xmul x y). Proof. by case: x => //; case: y. Qed.

Lemma not_allP (s : seq xn) : ~~ all (@xfin F) s -> exists2 k, (k < size s)%N & ~~ xfin (nth (Fin 0) s k).
Proof.
elim: s => //= x s IH; rewrite negb_and => /orP[hx|/IH [k hk h]]; first by exists 0%N.
by exists k.+1.
Qed.

Local Arguments xmul : simpl never.
Local Arguments xadd : simpl never.
Lemma xS_stepE dim n (mu : seq xn) S0 X i j : (i < dim)%N -> (j < dim)%N ->
  xat (nth [::] (xS_step dim n mu S0 X) i) j =
  xadd (xat (nth [::] S0 i) j)
    (xadd (xsum [seq xmul (xsub (xat x i) (xbatch_mean X i)) (xsub (xat x j) (xbatch_mean X j)) | x <- X])
          (xmul (Fin ((n * size X)%:R / (n + size X)%:R)) (xmul (xdelta_mean mu X i) (xdelta_mean mu X j)))).
Proof. by move=> hi hj; rewrite /xS_step nth_mkseq // {1}/xat nth_mkseq. Qed.

Lemma xrun_scatter dim r h e Sx i j : (i < dim)%N -> (j < dim)%N ->
  run_hist (@xest_update F) (xest_init F dim true r) h = Some e -> xa_S (xe_acc e) = Some Sx ->
  if clean h i && clean h j then xfin (xat (nth [::] Sx i) j) else is_nan (xat (nth [::] Sx i) j).
Proof.
move=> hi hj; elim/last_ind: h e Sx => [|h B IH] e' Sx.
  by case=> <- [<-] /=; rewrite nth_nseq hi /xat nth_nseq hj.
case/xrun_rcons => e he; have [hd hn _ hS _] := xrun_shape he.
have [IHi _] := xrun_mean hi he; have [IHj _] := xrun_mean hj he.
case/xest_updateE => /xacc_updateE [_ hpos ->] _ _ _ /=; rewrite hd hn.
case ES: (xa_S (xe_acc e)) hS => [S0|] //= _ [<-]; have {}IH := IH e S0 he ES.
rewrite xS_stepE // !clean_rcons -IHi -IHj.
case hB: (filled B); last first.
  move/negbT: hB; rewrite /filled -eqn0Ngt => /eqP/size0nil ->; rewrite !andbF.
  by rewrite /xdelta_mean !xbatch_nil /xsub !xnan_addl xnan_mul !xnan_add.
have [hfi _ _ _] := xbatch_fin i hB; have [hfj _ _ _] := xbatch_fin j hB.
move: IH; rewrite -IHi -IHj.
case mi: (xfin (xat (xa_mu (xe_acc e)) i)) => /=; last by case: (xat (nth [::] S0 i) j) => //; rewrite xnan_addl.
case mj: (xfin (xat (xa_mu (xe_acc e)) j)) => /=; last by rewrite andbF; case: (xat (nth [::] S0 i) j) => //; rewrite xnan_addl.
move=> h0; case ai: (all _ (xcol (rows_of B) i)); case aj: (all _ (xcol (rows_of B) j)) => /=.
- rewrite !xfin_add h0 xfin_sum !xfin_mul // ?xfin_sub ?hfi ?hfj ?ai ?aj ?mi ?mj // !andbT.
  apply/(all_nthP (Fin 0)) => k; rewrite size_map => hk; rewrite (nth_map [::]) //.
  rewrite xfin_mul // xfin_sub ?hfi ?hfj ?ai ?aj andbT.
    by move/(all_nthP (Fin 0)): ai => /(_ k); rewrite size_map => /(_ hk); rewrite (nth_map [::]).
  by move/(all_nthP (Fin 0)): aj => /(_ k); rewrite size_map => /(_ hk); rewrite (nth_map [::]).
- move/negbT: aj => /not_allP [k]; rewrite size_map => hk hx; have := xsub_own_mean hk hx; rewrite (nth_map [::]) // => hN.
  by rewrite (@xsum_nan _ _ k) ?size_map // ?(nth_map [::]) ?hN ?xnan_mul ?xnan_addl ?xnan_add.
- move/negbT: ai => /not_allP [k]; rewrite size_map => hk hx; have := xsub_own_mean hk hx; rewrite (nth_map [::]) // => hN.
  by rewrite (@xsum_nan _ _ k) ?size_map // ?(nth_map [::]) ?hN ?xnan_mull ?xnan_addl ?xnan_add.
- move/negbT: ai => /not_allP [k]; rewrite size_map => hk hx; have := xsub_own_mean hk hx; rewrite (nth_map [::]) // => hN.
  by rewrite (@xsum_nan _ _ k) ?size_map // ?(nth_map [::]) ?hN ?xnan_mull ?xnan_addl ?xnan_add.
Qed.
End Acc.

Section Criteria.
Variable F : rcfType.
Variables (tppf : F -> nat -> F) (zq : F -> F).
Local Notation xn := (xnum F).
Implicit Types (l s : seq xn) (h : seq (arr xn)) (e : xest F).

Lemma xfin_max (a b : xn) : xge0nan a -> xge0nan b -> xfin (xmax a b) = xfin a && xfin b.
Proof. by rewrite /xmax; case: a => [x|||]; case: b => [y|||] //= _ _; case: ifP. Qed.

Lemma xfin_foldmax (a : xn) l : xge0nan a -> all (@xge0nan F) l ->
  xfin (foldr (@xmax F) a l) = xfin a && all (@xfin F) l.
Proof.
move=> ha; elim: l => [|b l IH] /=; first by rewrite andbT.
case/andP=> hb hl; rewrite xfin_max ?IH //; first by rewrite andbCA.
by elim: l hl {IH} => //= c l IH /andP[hc /IH h]; apply: xge0nan_max.
Qed.

Lemma xge0nan_foldmax (a : xn) l : xge0nan a -> all (@xge0nan F) l -> xge0nan (foldr (@xmax F) a l).
Proof. by move=> ha; elim: l => //= b l IH /andP[hb hl]; apply: xge0nan_max => //; exact: IH. Qed.

Lemma xfin_abs (x : xn) : xfin (xabs x) = xfin x. Proof. by case: x. Qed.

Lemma xfin_sqrt (x : xn) : xfin (xsqrt x) -> xfin x. Proof. by case: x. Qed.
Lemma xfin_sq (x : xn) : xfin (xmul x x) = xfin x. Proof. by case: x. Qed.

(* orders of np.linalg.norm that look at every entry *)
Definition full_ord (o : nord) : bool :=
  match o with OrdNone | Ord1 | Ord2 | OrdInf => true | _ => false end.

Lemma norm_nonfin o l i : full_ord o -> ~~ xfin (xat l i) ->
  exists2 v, norm1d o l = Ok v & forall b, xlt v b = false.
Proof.
move=> ho hx; have hn : ~~ all (@xfin F) l.
  apply: contra hx => /(all_nthP (Fin 0)) h; rewrite /xat.
  by case: (ltnP i (size l)) => hi; [exact: h | rewrite nth_default].
have fin v : norm1d o l = Ok v -> ~~ xfin v -> exists2 v, norm1d o l = Ok v & forall b, xlt v b = false.
  move=> hv hf; exists v => // b; have := norm1d_ge0 hv.
  by case: v hf {hv} => // _; case: b.
have alls (f : xn -> xn) : (forall x, xfin (f x) = xfin x) -> all (@xfin F) [seq f x | x <- l] = all (@xfin F) l.
  by move=> hf; rewrite all_map; apply: eq_all => x; exact: hf.
case: o ho fin => // _ fin.
- by apply: (fin _ erefl); apply: contra hn => /xfin_sqrt; rewrite xfin_sum alls // => x; exact: xfin_sq.
- by apply: (fin _ erefl); rewrite xfin_sum alls // => x; exact: xfin_abs.
- by apply: (fin _ erefl); apply: contra hn => /xfin_sqrt; rewrite xfin_sum alls // => x; exact: xfin_sq.
- case: l hn {hx alls} fin => // x l hn fin; apply: (fin _ erefl).
  rewrite xfin_foldmax ?xge0nan_abs ?all_map_ge0 // => [|y]; last exact: xge0nan_abs.
  rewrite xfin_abs all_map; apply: contra hn => /= /andP[-> h]; apply: sub_all h => y /=.
  by rewrite xfin_abs.
Qed.

(* ---- the knee ------------------------------------------------------------------------ *)
Lemma xknee_last (mv : seq xn) : ~~ all (@xfin F) mv -> xknee_y mv <> [::] ->
  last NaN (xknee_curve (xknee_y mv)) = NaN.
Proof.
case/not_allP => k hk hx; rewrite /xknee_y.
set sc := mkseq _ (size mv); set d := mkseq _ (size sc).-1 => hy.
have szs : size sc = size mv by rewrite size_mkseq.
have szd : size d = (size mv).-1 by rewrite size_mkseq szs.
have hs : ~~ xfin (xat sc k).
  rewrite /xat nth_mkseq //; have [-> _ _ _] := xdiv_pos (xat mv k) (ltr0Sn F k).
  exact: hx.
have hd0 : (0 < size d)%N by case: (size d) hy.
have [j hj hdj] : exists2 j, (j < size d)%N & ~~ xfin (xat d j).
  case: (ltnP k (size d)) => hkd.
    exists k => //; rewrite {1}/xat nth_mkseq ?xfin_abs ?xfin_sub; last by rewrite szd in hkd; rewrite szs.
    by rewrite (negbTE hs) andbF.
  exists k.-1; first by rewrite szd in hkd hd0 *; lia.
  rewrite {1}/xat nth_mkseq ?xfin_abs ?xfin_sub; last by rewrite szd in hkd hd0; rewrite szs; lia.
  by rewrite prednK ?(negbTE hs) //; rewrite szd in hkd hd0; lia.
have dge : all (@xge0nan F) d.
  by apply/(all_nthP (Fin 0)) => m; rewrite size_mkseq => hm; rewrite nth_mkseq //; exact: xge0nan_abs.
set y := mkseq _ (size d).
have szy : size y = size d by rewrite size_mkseq.
have yge : all (@xge0nan F) y.
  apply/(all_nthP (Fin 0)) => m; rewrite size_mkseq => hm; rewrite nth_mkseq //.
  by apply: xge0nan_sum; move: dge; rewrite -{1}(cat_take_drop m.+1 d) all_cat => /andP[].
have ylast : ~~ xfin (nth (Fin 0) y (size d).-1).
  rewrite nth_mkseq ?prednK // take_size xfin_sum.
  by apply: contra hdj => /(all_nthP (Fin 0)) h; exact: h.
have y0 : xge0nan (xat y 0) by move/(all_nthP (Fin 0)): yge => h; apply: h; rewrite szy.
have hi_inf : ~~ xfin (xfold (@xmax F) y).
  rewrite /xfold xfin_foldmax // negb_and; apply/orP; right; apply: contra ylast => /(all_nthP (Fin 0)) h.
  by apply: h; rewrite szy prednK.
have hi_ge : xge0nan (xfold (@xmax F) y) by apply: xge0nan_foldmax.
have yl_ge : xge0nan (nth (Fin 0) y (size d).-1).
  by move/(all_nthP (Fin 0)): yge => h; apply: h; rewrite szy prednK.
rewrite (last_nth (Fin 0)) /xknee_curve size_mkseq szy.
case E: (size d) hd0 ylast yl_ge => [//|p] _ /= hl hlge; rewrite nth_mkseq // -[xat y p]/(nth (Fin 0) y p).
move: hl hlge hi_inf hi_ge; case: (nth (Fin 0) y p) => [?|||] // _ _; case: (xfold (@xmax F) y) => [?|||] // _ _;
  by case: (xfold (@xmin F) y).
Qed.

(* ---- criteria that a non-finite sample keeps from ever being met ---------------------- *)
Fixpoint stalls (c : bcrit F) : bool :=
  match c with
  | BCount _ => false
  | BTol _ _ o => full_ord o
  | BConf _ a r => xfin a && xfin r
  | BKnee _ => true
  | BOr a b => stalls a && stalls b
  | BAnd a b => stalls a || stalls b
  | BNot _ => false
  end.

(* column i has had an infinite or NaN sample *)
Definition hit h (i : nat) : bool := ~~ all (@xfin F) (xcol (all_rows h) i).

Lemma hit_clean h i : hit h i -> clean h i = false.
Proof. by rewrite /hit /clean => /negbTE ->. Qed.

Lemma hit_flatten (X : seq (seq xn)) i : ~~ all (@xfin F) (xcol X i) -> ~~ all (@xfin F) (flatten X).
Proof.
apply: contra; elim: X => //= x X IH; rewrite all_cat => /andP[hx /IH ->]; rewrite andbT /xat.
by case: (ltnP i (size x)) => hi; [move/(all_nthP (Fin 0)): hx; exact | rewrite nth_default].
Qed.

Lemma xcrit_stalls dim c r h e i cr : (i < dim)%N -> hit h i -> stalls cr ->
  run_hist (@xest_update F) (xest_init F dim c r) h = Some e -> xcrit_call tppf zq cr e <> Ok true.
Proof.
move=> hi ht + he; have [hd hn hne hS hv] := xrun_shape he.
have hc := hit_clean ht.
elim: cr => //=.
- move=> rt at_ o ho; rewrite /xtol_call.
  case: h ht he hc {hn hne hv} => [//|b h]; rewrite lastI => ht he hc.
  have [_ hf] := xrun_delta hi he; have hnf : ~~ xfin (xat (xe_delta e) i) by rewrite hf hc.
  have [v -> hv] := norm_nonfin ho hnf; rewrite /= hv.
  by case: (norm1d o (xest_estimate e)) => //= n; rewrite hv.
- move=> q at_ rt /andP[ha hr]; rewrite /xconf_call.
  case: ifP => h3; first by case: at_ ha => //; case: rt hr.
  case ES: (xa_S (xe_acc e)) => [Sx|//]; case: eqP => // d1; have hi0 : i = 0%N by rewrite d1 in hd; lia.
  have hcc : c by rewrite -hS ES.
  have hvar : xvar (xe_acc e) Sx = NaN.
    rewrite hcc in he; have := xrun_scatter hi hi he ES; rewrite hc hi0 => /is_nanP h0.
    by rewrite /xvar h0; case: ifP => // h1; move: h1 h3; rewrite hn hne; lia.
  by rewrite hvar.
- move=> sens _; rewrite /xknee_call hv; case: r {he hv} => //; case: ifP => // h3.
  case E: (xknee_y (flatten (all_rows h))) => [//|y ys]; rewrite -E xknee_last ?E //; first by rewrite andbF.
  exact: hit_flatten ht.
- move=> a IHa b IHb /andP[/IHa ha /IHb hb].
  by case: (xcrit_call _ _ a e) ha => [[]|] //= _; case: (xcrit_call _ _ b e) hb => [[]|].
- move=> a IHa b IHb /orP[/IHa ha|/IHb hb].
    by case: (xcrit_call _ _ a e) ha => [[]|] //= _; case: (xcrit_call _ _ b e).
  by case: (xcrit_call _ _ a e) => [x|] //=; case: (xcrit_call _ _ b e) hb => [[]|] //= _; rewrite andbF.
Qed.
End Criteria.
