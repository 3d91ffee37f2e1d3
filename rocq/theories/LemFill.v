(* Interleaved execution of Isotropic.fill: tasks with disjoint footprints
   commute, and one task alone computes what the sequential sampler computes. *)
From mathcomp Require Import all_ssreflect all_algebra zify.
From Verif Require Import Base ModelTyping ModelRandom ModelRandom2.
Set Implicit Arguments.
Unset Strict Implicit.
Unset Printing Implicit Defensive.
Import Order.TTheory GRing.Theory Num.Theory.
Local Open Scope ring_scope.

Section L.
Variable F : rcfType.
Variable G : Type.
Variable unif : G -> rat * G.
Variable gauss : G -> F * G.
Local Notation shared := (shared F G).
Local Notation op := (op F G).
Local Notation OMap := (@OMap F G).
Implicit Types (s : shared) (o : op).

Definition exec_all (os : seq op) s : shared := foldl (fun s o => exec o s) s os.

Lemma exec_all_cat os os' s : exec_all (os ++ os') s = exec_all os' (exec_all os s).
Proof. by rewrite /exec_all foldl_cat. Qed.

Lemma updE (T : eqType) (U : Type) (f : T -> U) x v y : upd f x v y = if y == x then v else f y.
Proof. by []. Qed.

(* ---- footprints ----------------------------------------------------------------- *)
Definition incols (lo hi : nat) (p : cell) : bool := (lo <= p.2 < hi)%N.
Definition owns (i lo hi : nat) o : bool :=
  match o with
  | ODraw _ j p => (j == i) && incols lo hi p
  | ModelRandom2.OMap _ p => incols lo hi p
  | OZero j c => j == i
  | OSq j p => (j == i) && incols lo hi p
  | ORoot j c => j == i
  | ODiv j p => (j == i) && incols lo hi p
  end.

Definition agree (i lo hi : nat) s s' : Prop :=
  [/\ forall p, incols lo hi p -> cells s p = cells s' p, gens s i = gens s' i & norms s i =1 norms s' i].

Lemma agree_refl i lo hi s : agree i lo hi s s. Proof. by []. Qed.
Lemma agree_trans i lo hi s2 s1 s3 : agree i lo hi s1 s2 -> agree i lo hi s2 s3 -> agree i lo hi s1 s3.
Proof. by case=> a b c [a' b' c']; split=> [p h||x]; [rewrite a // a'|rewrite b|rewrite c]. Qed.

Lemma exec_local i lo hi o s s' : owns i lo hi o -> agree i lo hi s s' -> agree i lo hi (exec o s) (exec o s').
Proof.
case: o => /= [d j p /andP[/eqP-> hp]|f p hp|j c /eqP->|j p /andP[/eqP-> hp]|j c /eqP->|j p /andP[/eqP-> hp]] [a b e].
- rewrite -b; case: (d _) => v g; split=> /= [q hq||//]; last by rewrite !updE eqxx.
  by rewrite !updE; case: eqP => // _; exact: a.
- by split=> //= q hq; rewrite !updE (a p hp); case: eqP => // _; exact: a.
- by split=> //= x; rewrite !updE eqxx !updE e.
- by split=> //= x; rewrite !updE eqxx !updE !e (a p hp).
- by split=> //= x; rewrite !updE eqxx !updE !e.
- by split=> //= q hq; rewrite !updE e (a p hp); case: eqP => // _; exact: a.
Qed.

Lemma exec_frame i lo hi j lo' hi' o s : owns j lo' hi' o -> i != j ->
  (forall p, incols lo hi p -> ~~ incols lo' hi' p) -> agree i lo hi (exec o s) s.
Proof.
move=> ow ij dj; have hne p : incols lo' hi' p -> forall q, incols lo hi q -> (q == p) = false.
  by move=> hp q hq; apply/negP => /eqP E; have := dj _ hq; rewrite E hp.
have ji : (i == j) = false by exact: negbTE.
case: o ow => /= [d k p /andP[/eqP-> hp]|f p hp|k c /eqP->|k p /andP[/eqP-> hp]|k c /eqP->|k p /andP[/eqP-> hp]].
- by case: (d _) => v g; split=> //= [q hq|]; rewrite updE ?ji // (hne _ hp).
- by split=> //= q hq; rewrite updE (hne _ hp).
- by split=> //= x; rewrite updE ji.
- by split=> //= x; rewrite updE ji.
- by split=> //= x; rewrite updE ji.
- by split=> //= q hq; rewrite updE (hne _ hp).
Qed.

Lemma exec_all_local i lo hi os s s' : all (owns i lo hi) os -> agree i lo hi s s' ->
  agree i lo hi (exec_all os s) (exec_all os s').
Proof.
elim: os s s' => [//|o os IH] s s' /= /andP[h1 h2] a; apply: IH => //; exact: exec_local.
Qed.

(* ---- schedules -------------------------------------------------------------------- *)
Section Sched.
Variables (t : nat) (lo hi : nat -> nat).
Hypothesis disj : forall i j p, i != j -> incols (lo i) (hi i) p -> ~~ incols (lo j) (hi j) p.
Definition good (ps : seq (seq op)) : Prop := forall i, all (owns i (lo i) (hi i)) (nth [::] ps i).

Lemma sched_inv sched s ps s' ps' : good ps ->
  foldl (@sched_step F G) (s, ps) sched = (s', ps') ->
  good ps' /\ size ps' = size ps /\
  (forall i, (i < size ps)%N -> agree i (lo i) (hi i) (exec_all (nth [::] ps' i) s') (exec_all (nth [::] ps i) s)) /\
  (forall p, (forall i, ~~ incols (lo i) (hi i) p) -> cells s' p = cells s p).
Proof.
elim: sched s ps => [|k sched IH] s ps g /=; first by case=> <- <-; split.
rewrite {2}/sched_step /=; case E: (nth [::] ps k) => [|o os]; first exact: IH.
have kl : (k < size ps)%N by case: ltnP => // h; rewrite nth_default in E.
have gk := g k; rewrite E /= in gk; case/andP: gk => go gos.
have g2 : good (set_nth [::] ps k os).
  by move=> i; rewrite nth_set_nth /=; case: eqP => // ->.
have sz : size (set_nth [::] ps k os) = size ps by rewrite size_set_nth; apply/maxn_idPr.
move=> /(IH _ _ g2) [h1 [h2 [h3 h4]]]; split=> //; split; first by rewrite h2.
split=> [i il|p hp].
- apply: (agree_trans (h3 i _)); first by rewrite sz.
  rewrite nth_set_nth /=; case: eqP => [->|/eqP ik]; first by rewrite E.
  apply: exec_all_local; first exact: g.
  by apply: (exec_frame _ go) => // p; exact: disj.
- rewrite h4 //; have hk := hp k; case: o go {E h3 h4} => //= [d j q|f q|j q].
  + by case: (d _) => v gg /= /andP[_ hq]; rewrite updE; case: eqP hk => // ->; rewrite hq.
  + by move=> hq; rewrite updE; case: eqP hk => // ->; rewrite hq.
  + by move=> /andP[_ hq]; rewrite updE; case: eqP hk => // ->; rewrite hq.
Qed.

(* enough turns for everyone finish everything *)
Lemma sched_done sched s ps s' ps' : foldl (@sched_step F G) (s, ps) sched = (s', ps') ->
  forall i, size (nth [::] ps' i) = (size (nth [::] ps i) - count_mem i sched)%N.
Proof.
elim: sched s ps => [|k sched IH] s ps /=; first by case=> _ <- i; rewrite subn0.
rewrite {2}/sched_step /=; case E: (nth [::] ps k) => [|o os] /IH h i; rewrite h.
  by case: (eqVneq k i) => [<-|_]; rewrite ?E.
by rewrite nth_set_nth /= [i == k]eq_sym; case: (eqVneq k i) => [<-|_] //=; rewrite E.
Qed.
End Sched.

(* ---- one task alone ------------------------------------------------------------------ *)
Lemma map_cells (f : fl F -> fl F) (cs : seq cell) s : uniq cs ->
  let s' := exec_all (map (OMap f) cs) s in
  [/\ forall p, cells s' p = if p \in cs then f (cells s p) else cells s p, gens s' = gens s & norms s' = norms s].
Proof.
elim: cs s => [//|q cs IH] s /= /andP[nq uq].
have [h1 h2 h3] := IH (exec (OMap f q) s) uq; split=> // p; rewrite h1 /= updE in_cons.
by case: eqP => [->|_]; rewrite ?(negbTE nq).
Qed.

(* drawing one column *)
Lemma draw_col (d : G -> fl F * G) i c m r0 s :
  let s' := exec_all [seq ODraw d i (r, c) | r <- iota r0 m] s in
  let D := draws d m (gens s i) in
  [/\ forall p, cells s' p = if (p.2 == c) && (r0 <= p.1 < r0 + m)%N then nth (FRe 0) D.1 (p.1 - r0) else cells s p,
      gens s' =1 (fun j => if j == i then D.2 else gens s j) &
      norms s' = norms s].
Proof.
elim: m r0 s => [|m IH] r0 s /=.
  split=> //; last by move=> j; case: eqP => // ->.
  by move=> p; case: ifP => //; lia.
rewrite /exec_all /= -/(exec_all _ _); case E: (d (gens s i)) => [v g] /=.
case E2: (draws d m g) => [vs g2] /=.
set s1 := Shared _ _ _; have := IH r0.+1 s1; rewrite /= updE eqxx E2 /= => -[h1 h2 h3]; split=> // [p|].
  rewrite h1 /s1 /= updE; case: p => [r cc] /=; rewrite xpair_eqE.
  case: (eqVneq cc c) => [->|_] /=; rewrite ?andbF ?andbT //.
  case: (eqVneq r r0) => [->|ne] /=.
    by rewrite ltnn leqnn subnn addnS ltnS leq_addr.
  rewrite addSnnS; have -> : (r0 < r)%N = (r0 <= r)%N by rewrite ltn_neqAle eq_sym ne.
  case: ifP => // /andP[h _]; have h' : (r0 < r)%N by rewrite ltn_neqAle eq_sym ne h.
  by rewrite -(subnSK h').
by move=> j; rewrite h2 /s1 /= updE; case: eqP.
Qed.

Definition cols_block (n lo w : nat) : seq cell := [seq (r, c) | c <- iota lo w, r <- iota 0 n].

Lemma draw_block (d : G -> fl F * G) i n w lo s :
  let s' := exec_all (map (ODraw d i) (cols_block n lo w)) s in
  let D := fill_cols d n w (gens s i) in
  [/\ forall p, cells s' p = if (lo <= p.2 < lo + w)%N && (p.1 < n)%N
                             then nth (FRe 0) (nth [::] D.1 (p.2 - lo)) p.1 else cells s p,
      gens s' =1 (fun j => if j == i then D.2 else gens s j) & norms s' = norms s].
Proof.
elim: w lo s => [|w IH] lo s /=.
  split=> //; last by move=> j; case: eqP => // ->.
  by move=> p; case: ifP => // /andP[/andP[h1 h2] _]; move: h2; rewrite addn0 ltnNge h1.
rewrite /cols_block /= map_cat exec_all_cat -map_comp.
have [c1 c2 c3] := draw_col d i lo n 0 s; set s1 := exec_all _ s in c1 c2 c3 *.
case E1: (draws d n (gens s i)) c1 c2 => [vs g1] /= c1 c2.
have := IH lo.+1 s1; rewrite /= c2 eqxx; case E2: (fill_cols d n w g1) => [cs g2] /= [h1 h2 h3].
split=> [p||]; last by rewrite h3.
  rewrite h1 c1; case: p => [r c] /=; rewrite subn0 add0n addSnnS.
  case: (eqVneq c lo) => [->|ne] /=.
    by rewrite ltnn leqnn subnn addnS ltnS leq_addr.
  have -> : (lo < c)%N = (lo <= c)%N by rewrite ltn_neqAle eq_sym ne.
  case: ifP => // /andP[/andP[h _] _]; have h' : (lo < c)%N by rewrite ltn_neqAle eq_sym ne h.
  by rewrite -(subnSK h').
by move=> j; rewrite h2 c2; case: eqP.
Qed.

Lemma zero_cols i (cs : seq nat) s :
  let s' := exec_all (map (@OZero F G i) cs) s in
  [/\ cells s' = cells s, gens s' = gens s & forall c, norms s' i c = if c \in cs then 0 else norms s i c].
Proof.
elim: cs s => [//|q cs IH] s /=.
have [h1 h2 h3] := IH (exec (@OZero F G i q) s); split=> // c; rewrite h3 /= updE eqxx updE in_cons.
by case: eqP => [->|_] /=; rewrite ?if_same.
Qed.

Lemma root_cols i (cs : seq nat) s : uniq cs ->
  let s' := exec_all (map (@ORoot F G i) cs) s in
  [/\ cells s' = cells s, gens s' = gens s &
      forall c, norms s' i c = if c \in cs then Num.sqrt (norms s i c) else norms s i c].
Proof.
elim: cs s => [//|q cs IH] s /= /andP[nq uq].
have [h1 h2 h3] := IH (exec (@ORoot F G i q) s) uq; split=> // c; rewrite h3 /= updE eqxx !updE in_cons.
by case: eqP => [->|_] /=; rewrite ?(negbTE nq).
Qed.

Lemma sq_cells i (cs : seq cell) s :
  let s' := exec_all (map (@OSq F G i) cs) s in
  [/\ cells s' = cells s, gens s' = gens s &
      forall c, norms s' i c = norms s i c + \sum_(p <- cs | p.2 == c) fval (cells s p) ^+ 2].
Proof.
elim: cs s => [|q cs IH] s /=; first by split=> // c; rewrite big_nil addr0.
have [h1 h2 h3] := IH (exec (@OSq F G i q) s); split=> // c; rewrite h3 /= updE eqxx updE big_cons eq_sym.
by case: eqP => [->|_]; rewrite ?addrA.
Qed.

Lemma div_cells i (cs : seq cell) s : uniq cs ->
  let s' := exec_all (map (@ODiv F G i) cs) s in
  [/\ forall p, cells s' p = if p \in cs then FRe (fval (cells s p) / norms s i p.2) else cells s p,
      gens s' = gens s & norms s' = norms s].
Proof.
elim: cs s => [//|q cs IH] s /= /andP[nq uq].
have [h1 h2 h3] := IH (exec (@ODiv F G i q) s) uq; split=> // p; rewrite h1 /= updE in_cons.
by case: eqP => [->|_]; rewrite ?(negbTE nq).
Qed.

Lemma mem_cols n lo w p : (p \in cols_block n lo w) = (lo <= p.2 < lo + w)%N && (p.1 < n)%N.
Proof.
apply/allpairsPdep/idP => [[c [r [hc hr ->]]]|/andP[h1 h2]] /=.
  by move: hc hr; rewrite !mem_iota add0n /= => -> ->.
by exists p.2, p.1; rewrite !mem_iota add0n /= h1 h2; case: p {h1 h2}.
Qed.

Lemma uniq_cols n lo w : uniq (cols_block n lo w).
Proof. by apply: allpairs_uniq; rewrite ?iota_uniq // => -[a b] [a' b'] _ _ [-> ->]. Qed.

Lemma sum_cols n lo w (f : cell -> F) c : (lo <= c < lo + w)%N ->
  \sum_(p <- cols_block n lo w | p.2 == c) f p = \sum_(r <- iota 0 n) f (r, c).
Proof.
move=> hc; rewrite big_mkcond /cols_block big_allpairs_dep /=.
rewrite (bigD1_seq c) ?iota_uniq ?mem_iota //=.
rewrite [X in _ + X]big1 ?addr0; last first.
  by move=> j jc; rewrite big1 // => r _; rewrite (negbTE jc).
by apply: eq_bigr => r _; rewrite eqxx.
Qed.

Lemma draws_map (T U : Type) (h : T -> U) (d : G -> T * G) (d' : G -> U * G) :
  (forall g, d' g = (h (d g).1, (d g).2)) -> forall n g, draws d' n g = (map h (draws d n g).1, (draws d n g).2).
Proof.
move=> e; elim=> [//|n IH] g /=; rewrite e; case: (d g) => x g1 /=; rewrite IH.
by case: (draws d n g1).
Qed.

Lemma fill_cols_map (T U : Type) (h : T -> U) (d : G -> T * G) (d' : G -> U * G) :
  (forall g, d' g = (h (d g).1, (d g).2)) ->
  forall n k g, fill_cols d' n k g = (map (map h) (fill_cols d n k g).1, (fill_cols d n k g).2).
Proof.
move=> e n; elim=> [//|k IH] g /=; rewrite (draws_map e); case: (draws d n g) => x g1 /=; rewrite IH.
by case: (fill_cols d n k g1).
Qed.

Lemma size_draws' (T : Type) (d : G -> T * G) n g : size (draws d n g).1 = n.
Proof. by elim: n g => [//|n IH] g /=; case: (d g) => x g1; have := IH g1; case: (draws d n g1) => s g2 /= ->. Qed.

Lemma fill_cols_sizes (T : Type) (d : G -> T * G) n k g :
  size (fill_cols d n k g).1 = k /\ forall j, (j < k)%N -> size (nth [::] (fill_cols d n k g).1 j) = n.
Proof.
elim: k g => [//|k IH] g /=; have := size_draws' d n g; case: (draws d n g) => x g1 /= sx.
have [h1 h2] := IH g1; case: (fill_cols d n k g1) h1 h2 => cs g2 /= -> h2; split=> // -[|j] //= jk.
exact: h2.
Qed.

Lemma iso_fill_sizes p n k g :
  size (iso_fill unif gauss p n k g).1 = k /\
  forall j, (j < k)%N -> size (nth [::] (iso_fill unif gauss p n k g).1 j) = n.
Proof.
case: p => /=.
- have [] := fill_cols_sizes unif n k g; case: (fill_cols unif n k g) => cs g' /= h1 h2.
  by rewrite size_map; split=> // j jk; rewrite (nth_map [::]) ?h1 // size_map h2.
- exact: fill_cols_sizes.
- have [] := fill_cols_sizes gauss n k g; case: (fill_cols gauss n k g) => cs g' /= h1 h2.
  by rewrite size_map; split=> // j jk; rewrite (nth_map [::]) ?h1 // size_map h2.
Qed.

(* one task alone computes what the sequential sampler computes on its columns *)
Lemma task_solo p n i lo hi s : (lo <= hi)%N ->
  let s' := exec_all (task unif gauss p n i lo hi) s in
  let D := iso_fill unif gauss p n (hi - lo) (gens s i) in
  (forall r c, (lo <= c < hi)%N -> (r < n)%N -> fval (cells s' (r, c)) = nth 0 (nth [::] D.1 (c - lo)) r) /\
  gens s' i = D.2.
Proof.
move=> lh; have lw : (lo + (hi - lo))%N = hi by rewrite subnKC.
set w := (hi - lo)%N in lw *; have ub := uniq_cols n lo w.
have mb r c : (lo <= c < hi)%N -> (r < n)%N -> (r, c) \in cols_block n lo w.
  by move=> h1 h2; rewrite mem_cols lw /= h1 h2.
have cw c : (lo <= c < hi)%N -> (c - lo < w)%N by move=> /andP[h1 h2]; rewrite ltn_sub2r // (leq_ltn_trans h1 h2).
case: p; rewrite /task /block -/(cols_block n lo w) -/w.
- have [a1 a2 a3] := draw_block (draw_unif F unif) i n w lo s.
  rewrite !exec_all_cat; set s1 := exec_all _ s in a1 a2 a3 *.
  have [b1 b2 _] := map_cells (@fl_double F) s1 ub; set s2 := exec_all _ s1 in b1 b2 *.
  have [c1 c2 _] := map_cells (@fl_floor F) s2 ub; set s3 := exec_all _ s2 in c1 c2 *.
  have [d1 d2 _] := map_cells (@fl_double F) s3 ub; set s4 := exec_all _ s3 in d1 d2 *.
  have [e1 e2 _] := map_cells (@fl_dec F) s4 ub; set s5 := exec_all _ s4 in e1 e2 *.
  have E g : draw_unif F unif g = (FRat F (unif g).1, (unif g).2) by rewrite /draw_unif; case: (unif g).
  rewrite (fill_cols_map E) /= in a1 a2; rewrite /=.
  have [z1 z2] := fill_cols_sizes unif n w (gens s i).
  case D: (fill_cols unif n w (gens s i)) z1 z2 a1 a2 => [cs g2] /= z1 z2 a1 a2; split; last by rewrite e2 d2 c2 b2 a2 eqxx.
  move=> r c hc hr; rewrite e1 mb // d1 mb // c1 mb // b1 mb // a1 lw /= hc hr /=.
  rewrite (nth_map [::]) ?z1 ?cw // (nth_map 0) ?z2 ?cw //.
  by rewrite (nth_map [::]) ?z1 ?cw // (nth_map 0) ?z2 ?cw.
- have [a1 a2 a3] := draw_block (draw_gauss gauss) i n w lo s.
  have E g : draw_gauss gauss g = (FRe (gauss g).1, (gauss g).2) by rewrite /draw_gauss; case: (gauss g).
  rewrite (fill_cols_map E) /= in a1 a2; rewrite /=.
  have [z1 z2] := fill_cols_sizes gauss n w (gens s i).
  split; last by rewrite a2 eqxx.
  move=> r c hc hr; rewrite a1 lw /= hc hr /= (nth_map [::]) ?z1 ?cw // (nth_map 0) ?z2 ?cw //.
- have [a1 a2 a3] := draw_block (draw_gauss gauss) i n w lo s.
  rewrite !exec_all_cat; set s1 := exec_all _ s in a1 a2 a3 *.
  have [b1 b2 b3] := zero_cols i (iota lo w) s1; set s2 := exec_all _ s1 in b1 b2 b3 *.
  have [c1 c2 c3] := sq_cells i (cols_block n lo w) s2; set s3 := exec_all _ s2 in c1 c2 c3 *.
  have [d1 d2 d3] := root_cols i s3 (iota_uniq lo w); set s4 := exec_all _ s3 in d1 d2 d3 *.
  have [e1 e2 e3] := div_cells i s4 ub; set s5 := exec_all _ s4 in e1 e2 e3 *.
  have [f1 f2 f3] := map_cells (fun v => FRe (fval v * Num.sqrt n%:R)) s5 ub; set s6 := exec_all _ s5 in f1 f2 f3 *.
  have E g : draw_gauss gauss g = (FRe (gauss g).1, (gauss g).2) by rewrite /draw_gauss; case: (gauss g).
  rewrite (fill_cols_map E) /= in a1 a2; rewrite /=.
  have [z1 z2] := fill_cols_sizes gauss n w (gens s i).
  case D: (fill_cols gauss n w (gens s i)) z1 z2 a1 a2 => [cs g2] /= z1 z2 a1 a2.
  split; last by rewrite f2 e2 d2 c2 b2 a2 eqxx.
  have v r c : (lo <= c < hi)%N -> (r < n)%N -> fval (cells s1 (r, c)) = nth 0 (nth [::] cs (c - lo)) r.
    by move=> hc hr; rewrite a1 lw /= hc hr /= (nth_map [::]) ?z1 ?cw // (nth_map 0) ?z2 ?cw.
  move=> r c hc hr; rewrite f1 mb //= e1 mb //= d1 c1 b1 v // d3 c3 b3 mem_iota lw hc add0r.
  rewrite sum_cols ?lw // b1 (nth_map [::]) ?z1 ?cw // /sphere_col (nth_map 0) ?z2 ?cw //.
  congr (_ / Num.sqrt _ * _).
  have zc : size (nth [::] cs (c - lo)) = n by rewrite z2 ?cw.
  rewrite [RHS](big_nth 0) zc /index_iota subn0; apply: eq_big_seq => j; rewrite mem_iota add0n /= => jn.
  by rewrite v.
Qed.

Lemma task_owned p n i lo hi : all (owns i lo hi) (task unif gauss p n i lo hi).
Proof.
have H q : q \in block n lo hi -> incols lo hi q.
  by rewrite /block -/(cols_block n lo (hi - lo)) mem_cols /incols => /andP[/andP[h1 h2] _]; rewrite h1 /=; move: h1 h2; set c := q.2; lia.
have Hp (f : cell -> op) : (forall q, q \in block n lo hi -> owns i lo hi (f q)) -> all (owns i lo hi) (map f (block n lo hi)).
  by move=> h; rewrite all_map; apply/allP => q hq; exact: h.
have Hz (f : nat -> op) cs : (forall c, owns i lo hi (f c)) -> all (owns i lo hi) (map f cs).
  by move=> h; rewrite all_map; apply/allP => q _; exact: h.
by case: p; rewrite /task ?all_cat ?Hp ?Hz //= => q /H ->; rewrite ?eqxx.
Qed.
End L.
