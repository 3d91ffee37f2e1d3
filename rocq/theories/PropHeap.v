(* C52: the arrays of the caller are not modified; what is returned is what the
   pure models compute. *)
From Coq Require Import String.
From mathcomp Require Import all_ssreflect all_algebra zify.
From Verif Require Import Base ModelTqli ModelLanczos ModelQuadrature ModelSpecial ModelOperators ModelHeap LemHeap.
From Verif Require Import SpecTridiag LemSpectral LemQuad PropTqli LemOperators PropOperators PropMatFun PropMatFun2 PropMatFun3 PropMatFun4.
Set Implicit Arguments.
Unset Strict Implicit.
Unset Printing Implicit Defensive.
Import Order.TTheory GRing.Theory Num.Theory.
Local Open Scope ring_scope.

(* decidable equality of views and calls *)
Lemma ref_pairK : cancel (fun r => (r_at r, r_pos r)) (fun p => Ref p.1 p.2). Proof. by case. Qed.
Definition ref_eqMixin := CanEqMixin ref_pairK.
Canonical ref_eqType := Eval hnf in EqType ref ref_eqMixin.
Lemma mref_pairK : cancel (fun r => (m_at r, m_rows r)) (fun p => MRef p.1 p.2). Proof. by case. Qed.
Definition mref_eqMixin := CanEqMixin mref_pairK.
Canonical mref_eqType := Eval hnf in EqType mref mref_eqMixin.
Definition hcall_sum (c : hcall) : ref + mref := match c with HMatvec x => inl x | HQuad X => inr X end.
Lemma hcall_sumK : cancel hcall_sum (fun c => match c with inl x => HMatvec x | inr X => HQuad X end). Proof. by case. Qed.
Definition hcall_eqMixin := CanEqMixin hcall_sumK.
Canonical hcall_eqType := Eval hnf in EqType hcall hcall_eqMixin.

Section P.
Variable F : rcfType.
Local Notation heap := (heap F).
Variables (lap_vals : seq F -> seq F -> res (seq F)) (lap_pairs : seq F -> seq F -> res (seq F * seq (seq F))).
Variables (junk : seq F) (eps : F).
Variables (G : Type) (unif : G -> rat * G).
Implicit Types (h : heap) (d e r : ref) (Z : mref).

(* ---- reading results ---------------------------------------------------------------------- *)
(* a result of tridiag.py, with references followed *)
Definition seen (p : heap * outcome href) : outcome (eres F) :=
  match p.2 with
  | Ret (HVals r) => Ret (EVals (load p.1 r))
  | Ret (HPairs r Z) => Ret (EPairs (load p.1 r) (mload p.1 Z))
  | Raise x => Raise x | NonFin => NonFin | Undef => Undef
  end.
(* the corresponding result of the pure model *)
Definition pure (r : res (eres F)) : outcome (eres F) :=
  match r with Err x => Raise x | Ok ENonFinite => NonFin | Ok v => Ret v end.

(* ---- tqli ----------------------------------------------------------------------------------- *)
Definition own (n0 : nat) h (d e : ref) Z : Prop :=
  [/\ (n0 <= r_at d < size h)%N, (n0 <= r_at e < size h)%N, (n0 <= m_at Z < size h)%N,
      [&& r_at d != r_at e, r_at d != m_at Z & r_at e != m_at Z] &
      [&& uniq (r_pos d), uniq (r_pos e), uniq (flatten (m_rows Z)) & all (fun u => size u == size (r_pos d)) (m_rows Z)]].

Lemma mload_flat h Z : mload h Z = reshape (shape (m_rows Z)) (load h (Ref (m_at Z) (flatten (m_rows Z)))).
Proof. by rewrite /mload /load /= -map_reshape flattenK. Qed.

Lemma h_tqliP n0 h d e Z mi : own n0 h d e Z -> (n0 <= size h)%N ->
  let p := h_tqli junk h d e Z mi in
  frame n0 pred0 h p.1 /\
  match tqli (tq_fuel mi) (load h d) (load h e) (mload h Z) mi with
  | Err x => p.2 = Raise x
  | Ok (TOk x) => p.2 = Ret tt /\ load p.1 d = x_d x /\ mload p.1 Z = x_Z x
  | Ok _ => p.2 = NonFin
  end.
Proof.
case=> /andP[d0 d1] /andP[e0 e1] /andP[Z0 Z1] /and3P[de dZ eZ] /and4P[ud ue uZ aZ] n0h; rewrite /h_tqli /=.
have fr xs1 xs2 xs3 : frame n0 pred0 h (mstore (store (store h d xs1) e xs2) Z xs3).
  by do 2 (apply: frame_trans; last by (apply: frame_store; rewrite /= ?d0 ?e0 ?Z0)); apply: frame_store; rewrite d0.
case E : (tqli _ _ _ _ _) => [[| |x]|x] //=; split=> //; split=> //.
have [|s1 s2 s3] := tqli_size E.
  by rewrite size_load all_map; apply/allP => u /(allP aZ) /=; rewrite size_map.
rewrite !size_load in s1 s2; split.
  rewrite /mstore load_store_apart; last by rewrite /apart /= eq_sym dZ.
  rewrite load_store_apart; last by rewrite /apart /= eq_sym de.
  by rewrite load_store_same.
have s3' : shape (x_Z x) = shape (m_rows Z) by rewrite s3 /mload /shape -map_comp; apply: eq_map => u /=; rewrite size_map.
by rewrite mload_flat /mstore load_store_same /= ?size_flatten -?s3' ?flattenK // s3'.
Qed.

(* ---- tridiag.py ------------------------------------------------------------------------------- *)
(* nothing of the result lies below n0, and its two arrays are different *)
Definition fresh (n0 : nat) (o : outcome href) : Prop :=
  match o with
  | Ret (HVals r) => (n0 <= r_at r)%N
  | Ret (HPairs r Z) => [&& n0 <= r_at r, n0 <= m_at Z & r_at r != m_at Z]%N
  | _ => True
  end.
Definition goodp (n0 : nat) h (p : heap * outcome href) (r : res (eres F)) : Prop :=
  [/\ frame n0 pred0 h p.1, seen p = pure r & fresh n0 p.2].

Lemma h_mrrrP n0 h d e Z : (n0 <= size h)%N -> (r_at d < size h)%N ->
  goodp n0 h (h_mrrr lap_vals lap_pairs h d e Z) (eigh_mrrr lap_vals lap_pairs (load h d) (load h e) (mload h Z)) /\
  forall x, (h_mrrr lap_vals lap_pairs h d e Z).2 = Raise x -> (h_mrrr lap_vals lap_pairs h d e Z).1 = h.
Proof.
move=> n0h d1; rewrite /h_mrrr /eigh_mrrr load_drop drop1.
have -> : nilp (mload h Z) = nilp (m_rows Z) by rewrite /nilp size_map.
case: ifP => _.
  case: (lap_vals _ _) => [w|x] //=; split=> //; split=> //=.
  - exact: frame_alloc.
  - by rewrite /seen /= load_fresh.
case: (lap_pairs _ _) => [[w Y]|x] //=; split=> //; split=> //=.
- by apply: frame_trans; apply: frame_alloc; rewrite ?size_rcons // leqW.
- rewrite /seen /= mload_fresh; congr (Ret (EPairs _ _)).
  rewrite (@frame_load F (size h).+1 pred0 (rcons h w)) ?load_fresh //.
  by apply: frame_alloc; rewrite size_rcons.
- by rewrite size_rcons n0h leqW //= neq_ltn ltnSn.
Qed.

Lemma h_etqliP n0 h d e Z mi : own n0 h d e Z -> (n0 <= size h)%N ->
  goodp n0 h (h_etqli junk h d e Z mi) (eigh_tqli (load h d) (load h e) (mload h Z) mi).
Proof.
move=> ho n0h; have [f H] := h_tqliP mi ho n0h; rewrite /h_etqli /eigh_tqli.
move: H f; have -> : nilp (mload h Z) = nilp (m_rows Z) by rewrite /nilp size_map.
case: (h_tqli junk h d e Z mi) => h' o; case: (tqli _ _ _ _ _) => [[| |x]|x] /=; try by move->.
case=> -> [Ed EZ] f; split=> //=.
  by rewrite /seen /=; case: ifP => _; rewrite Ed ?EZ.
case: ho => /andP[d0 _] _ /andP[Z0 _] /and3P[_ dZ _] _.
by case: ifP => //= _; rewrite d0 Z0 dZ.
Qed.

Lemma h_internalP n0 h d e Z method mi : own n0 h d e Z -> (n0 <= size h)%N ->
  goodp n0 h (h_internal lap_vals lap_pairs junk h d e Z method mi)
    (eigh_internal lap_vals lap_pairs (load h d) (load h e) (mload h Z) method mi).
Proof.
move=> ho n0h; rewrite /h_internal /eigh_internal.
have d1 : (r_at d < size h)%N by case: ho => /andP[].
have [[f E fr] hx] := h_mrrrP e Z n0h d1.
case: ifP => // _; case: ifP => [_|_]; first exact: h_etqliP.
move: f E fr hx; case: (h_mrrr _ _ h d e Z) => h' o /= f E fr hx.
case Eo : o E fr hx => [| |x|v] E fr hx;
  case: (eigh_mrrr _ _ _ _ _) E => [[w|w Y|]|y] //= E; try (by case: v E {Eo fr hx}).
case: E => ->; rewrite (hx x) //.
case: y; try by split=> //; case: {+}v E.
exact: h_etqliP.
Qed.

Lemma malloc_rows (X : seq (seq F)) :
  let R := reshape (shape X) (iota 0 (size (flatten X))) in flatten R = iota 0 (size (flatten X)) /\ shape R = shape X.
Proof.
have s : size (flatten X) = sumn (shape X) by rewrite size_flatten.
by split; [rewrite reshapeKr // size_iota s|rewrite reshapeKl // size_iota s].
Qed.
Lemma rcons_load h xs r : (r_at r < size h)%N -> load (rcons h xs) r = load h r.
Proof. by move=> hr; rewrite /load /buf nth_rcons hr. Qed.

Lemma h_tridiagP h d e vectors method mi : (r_at d < size h)%N -> (r_at e < size h)%N ->
  goodp (size h) h (h_tridiag lap_vals lap_pairs junk h d e vectors method mi)
    (tridiag_front lap_vals lap_pairs (load h d) (load h e) vectors method mi).
Proof.
move=> hd he; rewrite /h_tridiag /tridiag_front !size_load.
case: ifP => _; first by split.
case: ifP => _; first by split.
set e1 := (if _ then alloc _ _ else _).
have [h1 [s1 f1 re1 le1 Ee1]] : exists h1, [/\ (size h <= size h1)%N, frame (size h) pred0 h h1,
     e1 = (h1, e1.2), (r_at e1.2 < size h1)%N &
     load h1 e1.2 = if (size (r_pos e)).+1 == size (r_pos d) then 0 :: load h e else load h e].
  rewrite /e1; case: ifP => E.
    exists (rcons h (0 :: load h e)); split=> //=; first by rewrite size_rcons.
    - exact: frame_alloc.
    - by rewrite size_rcons.
    by rewrite (load_fresh h (0 :: load h e)).
  by exists h; split.
rewrite re1; move: e1.2 le1 Ee1 => e2 le1 Ee1 {e1 re1}; rewrite -Ee1 /copy /alloc /malloc.
have Ed : load h1 d = load h d by apply: (frame_load f1).
set X := (if vectors then _ else _).
have EX : X = (if vectors then eye F (size (r_pos d)) else [::]) by rewrite /X /= size_iota size_load.
have [RX SX] := malloc_rows X.
set Z := MRef _ _; set h2 := rcons h1 _; set h3 := rcons h2 _; set h4 := rcons h3 _.
set d' := Ref _ _; set e' := Ref _ _.
have s2 : size h2 = (size h1).+1 by rewrite size_rcons.
have s3 : size h3 = (size h1).+2 by rewrite size_rcons s2.
have s4 : size h4 = (size h1).+3 by rewrite size_rcons s3.
have L4 : [/\ load h4 d' = load h d, load h4 e' = load h1 e2 & mload h4 Z = X].
  split.
  - rewrite (@rcons_load h3) /= ?s3 ?ltnS ?leqW // (@rcons_load h2) /= ?s2 //; rewrite -Ed; exact: (load_fresh h1).
  - rewrite (@rcons_load h3) /= ?s3 ?s2 // (load_fresh h2 (load h2 e2)); exact: rcons_load.
  - exact: mload_fresh.
case: L4 => L1 L2 L3; rewrite -EX -L1 -L2 -L3.
have ow : own (size h) h4 d' e' Z.
  rewrite /own /d' /e' /Z /= s4 s3 s2 !ltnS !leqnn; split; rewrite ?(leqW s1) ?s1 ?(leqW (leqW s1)) ?leqnSn ?(leqW (leqnSn _)) //.
  - by rewrite !neq_ltn !ltnSn leqnSn.
  - rewrite !iota_uniq RX iota_uniq /= size_iota size_load.
    have : all (fun k => k == size (r_pos d)) (shape X).
      by rewrite EX; case: vectors {X EX RX SX Z h4 s4 L1 L2 L3} => //; rewrite /shape all_map; apply/allP => u /mapP[i _ ->] /=; rewrite size_mkseq.
    by rewrite -{1}SX {1}/shape all_map.
have n4 : (size h <= size h4)%N by rewrite s4 !leqW.
have [f E fr] := h_internalP method mi ow n4.
split=> //; apply: frame_trans f.
apply: (frame_trans f1); rewrite /h4 /h3 /h2.
by do 2 (apply: frame_trans; last by apply: frame_alloc; rewrite ?s3 ?s2 !leqW);  apply: frame_alloc.
Qed.

(* eigh_tridiag and eigvalsh_tridiag, whatever the memory, the arguments (views,
   possibly of the same memory), the method and LAPACK: no buffer that existed is
   changed, and new arrays with the right values are returned. *)
Theorem C52_tridiag h d e vectors method mi : (r_at d < size h)%N -> (r_at e < size h)%N ->
  let p := h_tridiag lap_vals lap_pairs junk h d e vectors method mi in
  [/\ forall a, (a < size h)%N -> buf p.1 a = buf h a,
      seen p = pure (tridiag_front lap_vals lap_pairs (load h d) (load h e) vectors method mi) &
      fresh (size h) p.2].
Proof. by move=> hd he; have [[_ f] E fr] := h_tridiagP vectors method mi hd he; split=> // a ha; rewrite f. Qed.

(* ---- the kernel --------------------------------------------------------------------------------- *)
Lemma apartC r1 r2 : apart r1 r2 = apart r2 r1.
Proof. by rewrite /apart eq_sym has_sym. Qed.
Lemma apart_lt n r1 r2 : (r_at r1 < n)%N -> (n <= r_at r2)%N -> apart r1 r2 /\ apart r2 r1.
Proof. by move=> h1 h2; rewrite apartC /apart neq_ltn (leq_trans h1 h2) orbT. Qed.

Lemma h_kernelP (n m : nat) (A : 'M[F]_(n, m)) h bd v deg rtol orth al be Q ncv :
  let p := h_kernel eps A h bd v deg rtol orth al be Q ncv in
  (forall r, apart v r -> apart al r -> apart be r -> apart Q r -> load p.1 r = load h r) /\
  ((size h <= size p.1)%N /\ (p.2 = Undef \/ p.2 = Ret tt)) /\
  (all (fun r => uniq (r_pos r)) [:: v; al; be; Q] -> pairwise apart [:: v; al; be; Q] ->
   match lanczos_recurrence eps A (load h v) deg rtol orth (load h al) (load h be) (load h Q) ncv with
   | None => p = (h, Undef)
   | Some st => p.2 = Ret tt /\
       (load p.1 al, load p.1 be, load p.1 Q) =
       if b_out bd then (k_alpha st, k_beta st, k_V st) else (load h al, load h be, load h Q)
   end).
Proof.
rewrite /h_kernel; case E : (lanczos_recurrence _ _ _ _ _ _ _ _ _ _) => [st|] /=; last by do 2?[split]; auto.
have [/= sq sa sb sV] := rec_size E; rewrite !size_load in sq sa sb sV.
split=> [r a1 a2 a3 a4|].
  by case: (b_out bd); case: (b_v bd); rewrite ?load_store_apart.
split.
  split; last by right.
  by case: (b_out bd); case: (b_v bd) => //; do ?[apply: leq_trans (size_store _ _ _)].
case/and5P => uv ua ub uQ _ /and4P[/and4P[va vb vQ _] /and3P[ab aQ _] /andP[bQ _] _]; split=> //.
have Lv r : apart v r -> load (if b_v bd then store h v (k_q st) else h) r = load h r.
  by move=> ar; case: ifP => // _; rewrite load_store_apart.
move: (if b_v bd then _ else _) Lv => h0 Lv.
case: (b_out bd); last by rewrite !Lv.
have LQ r hh : apart r Q -> load (store hh Q (k_V st)) r = load hh r by rewrite apartC => /load_store_apart.
have Lb r hh : apart r be -> load (store hh be (k_beta st)) r = load hh r by rewrite apartC => /load_store_apart.
by rewrite (LQ al) // (LQ be) // Lb // !load_store_same ?sa ?sb ?sV.
Qed.

(* ---- lanczos() ------------------------------------------------------------------------------------ *)
Definition ext h h' : Prop := (size h <= size h')%N /\ forall a, (a < size h)%N -> buf h' a = buf h a.
Lemma ext_refl h : ext h h. Proof. by []. Qed.
Lemma ext_trans h h' h'' : ext h h' -> ext h' h'' -> ext h h''.
Proof. by case=> s1 f1 [s2 f2]; split=> [|a ha]; [apply: leq_trans s2|rewrite f2 ?f1 // (leq_trans ha s1)]. Qed.
Lemma ext_alloc h xs : ext h (rcons h xs).
Proof. by split=> [|a ha]; [rewrite size_rcons|rewrite /buf nth_rcons ha]. Qed.
Lemma ext_load h h' r : ext h h' -> (r_at r < size h)%N -> load h' r = load h r.
Proof. by case=> _ f hr; rewrite /load f. Qed.

Lemma h_getP h o xs : oapp (fun r => r_at r < size h)%N true o ->
  let p := h_get h o xs in
  [/\ ext h p.1, (r_at p.2 < size p.1)%N, load p.1 p.2 = (if o is Some r then load h r else xs),
      oapp (fun r => uniq (r_pos r)) true o -> uniq (r_pos p.2) &
      if o is Some r then p.2 = r else (size h <= r_at p.2)%N].
Proof.
case: o => [r|] /= hr; first by split.
split=> //; rewrite ?size_rcons ?iota_uniq ?leqnn //; first exact: ext_alloc.
exact: load_fresh.
Qed.

(* the work arrays that were passed *)
Definition work_refs (w : hwork) : seq ref := pmap id [:: hw_alpha w; hw_beta w; omap snd (hw_Q w)].
Definition lseen (p : heap * outcome hbuf) : option (res (lbuf F)) :=
  match p.2 with
  | Ret (HBuf d c al be Q) => Some (Ok (LBuf d c (load p.1 al) (load p.1 be) (load p.1 Q)))
  | Raise x => Some (Err x) | NonFin => None | Undef => None
  end.
Definition work_val h (w : hwork) : lwork F :=
  LWork (omap (load h) (hw_alpha w)) (omap (load h) (hw_beta w))
    (omap (fun q : nat * nat * ref => (q.1.1, q.1.2, load h q.2)) (hw_Q w)) (hw_float w).

(* lanczos: what the caller can see of memory that is not (part of) a work array passed
   in is as before, the start vector in particular; what is returned is what the pure
   model computes, also when v0 overlaps the work arrays. *)
Theorem C52_lanczos (n m : nat) (A : 'M[F]_(n, m)) k dA h v0 deg rtol orth return_basis dtype w g :
  oapp (fun r => r_at r < size h)%N true v0 -> all (fun r => r_at r < size h)%N (work_refs w) ->
  let p := h_lanczos eps unif A k dA h v0 deg rtol orth return_basis dtype w g in
  [/\ p.2 <> Undef -> forall r, (r_at r < size h)%N -> all (apart r) (work_refs w) -> load p.1 r = load h r,
      all (fun r => uniq (r_pos r)) (work_refs w) -> pairwise apart (work_refs w) ->
        lseen p = lanczos_call eps unif A k dA (omap (load h) v0) deg rtol orth return_basis dtype (work_val h w) g &
      p.2 <> NonFin].
Proof.
move=> hv; rewrite /work_refs; case: w => wa wb wQ fr; set WR := pmap _ _; rewrite all_pmap => hw.
rewrite /h_lanczos /lanczos_call; set dg := (if deg is Some _ then _ else _); set dt := (if dtype is Some _ then _ else _).
case: ifP => _; first by split.
case: ifP => _; first by split.
set ot := (if _ || _ then _ else _); set nc := (if return_basis then _ else _).
set pv := (if v0 is Some _ then _ else _).
set xv := (X in size X != m).
have [hv1 [Ev xv1 lv1 Exv uv]] : exists h1, [/\ pv = (h1, pv.2), ext h h1, (size h <= r_at pv.2 < size h1)%N,
    load h1 pv.2 = xv & uniq (r_pos pv.2)].
  rewrite /pv /xv; case: (v0) hv => [r|] hr.
    exists (rcons (rcons h (load h r)) (load (rcons h (load h r)) (Ref (size h) (iota 0 (size (load h r)))))).
    rewrite /copy /alloc /= ; split=> //.
    - exact: ext_trans (ext_alloc _ _) (ext_alloc _ _).
    - by rewrite !size_rcons ltnS leqnn leqW.
    - by rewrite load_fresh; apply: load_fresh.
    - exact: iota_uniq.
  exists (rcons h (unif_vec F unif m g).1); split=> //=.
  - exact: ext_alloc.
  - by rewrite size_rcons leqnn ltnSn.
  - exact: load_fresh.
  - exact: iota_uniq.
case/andP: lv1 => lv0 lv1.
rewrite Ev; move: pv.2 lv0 lv1 Exv uv => v lv0 lv1 Exv uv {pv Ev}.
rewrite -(size_load hv1) Exv; case: ifP => _.
  by split=> //= _ r hr _; rewrite (ext_load xv1).
case/and4P: hw => ha hb hQ _.
have sh : (size h <= size hv1)%N by case: xv1.
have up (o : option ref) h' : (size h <= size h')%N -> oapp (fun r => r_at r < size h)%N true o ->
   oapp (fun r => r_at r < size h')%N true o by case: o => //= r s1 s2; apply: leq_trans s1.
have ha' : oapp (fun r => r_at r < size h)%N true wa by [].
have hb' : oapp (fun r => r_at r < size h)%N true wb by [].
have := h_getP (nseq `|dg|.+1 0) (up wa hv1 sh ha'); case: (h_get hv1 wa _) => h1 al /= [x1 la Ea ua fa].
have s1 : (size h <= size h1)%N by case: x1 => x1 _; apply: leq_trans x1.
have := h_getP (nseq `|dg|.+1 0) (up wb h1 s1 hb'); case: (h_get h1 wb _) => h2 be /= [x2 lb Eb ub fb].
have s2 : (size h <= size h2)%N by case: x2 => x2 _; apply: leq_trans x2.
set pQ := (if wQ is Some _ then _ else _); set vQ := (if omap _ wQ is Some _ then _ else _).
have [h3 [Q [EQ x3 lQ]]] : exists h3 Q, [/\ pQ = (h3, vQ.1.1, vQ.1.2, Q), ext h2 h3, (r_at Q < size h3)%N &
    [/\ load h3 Q = vQ.2, (if wQ is Some (_, _, r) then uniq (r_pos r) else true) -> uniq (r_pos Q) &
        if wQ is Some (_, _, r) then Q = r else (size h2 <= r_at Q)%N]].
  rewrite /pQ /vQ; case: (wQ) hQ => [[[a b] r]|] /= hr.
    exists h2, r; rewrite (leq_trans hr s2); split=> //; split=> //=.
    by rewrite (ext_load x2) ?(ext_load x1) ?(ext_load xv1) //; [apply: leq_trans sh|apply: leq_trans s1].
  exists (rcons h2 (nseq (n * `|nc|) 0)), (Ref (size h2) (iota 0 (size (nseq (n * `|nc|) 0 : seq F)))).
  split=> //=; first exact: ext_alloc.
    by rewrite size_rcons.
  by split=> //; [exact: load_fresh|rewrite iota_uniq].
case=> Q0 uQ fQ.
rewrite EQ; case: vQ Q0 EQ => [[qr qc] Q0] /= EQ0 _.
have x13 : ext h1 h3 by apply: ext_trans x3.
have x03 : ext hv1 h3 by apply: ext_trans x13.
have s13 : (size h1 <= size h3)%N by case: x13.
have Ea3 : load h3 al = if wa is Some r then load h r else nseq `|dg|.+1 0.
  rewrite (ext_load x13) // Ea; case: (wa) ha' => // r hr; exact: (ext_load xv1).
have Eb3 : load h3 be = if wb is Some r then load h r else nseq `|dg|.+1 0.
  by rewrite (ext_load x3) // Eb; case: (wb) hb' => // r hr; rewrite (ext_load x1) ?(ext_load xv1) //; apply: leq_trans sh.
have Ev3 : load h3 v = xv by rewrite (ext_load x03).
have E0 r : (r_at r < size h)%N -> load h3 r = load h r.
  by move=> hr; rewrite (ext_load x03) ?(ext_load xv1) //; apply: leq_trans sh.
have -> : (if omap (load h) wa is Some a then a else nseq `|dg|.+1 0) = load h3 al by rewrite Ea3; case: (wa).
have -> : (if omap (load h) wb is Some a then a else nseq `|dg|.+1 0) = load h3 be by rewrite Eb3; case: (wb).
rewrite !size_load; case: ifP => _.
  by split=> //= _ r hr _; rewrite E0.
case: (resolve k dt dA fr) => [bd|]; last by split=> //= _ r hr _; rewrite E0.
have [K1 [K2 K3]] := h_kernelP A h3 bd v dg rtol ot al be Q `|nc|.
have ltn_s1 : (size hv1 <= size h1)%N by case: x1.
have ltn_s2 : (size h1 <= size h2)%N by case: x2.
move: K1 K2 K3; rewrite Ev3 EQ0; case: (h_kernel _ _ _ _ _ _ _ _ _ _ _ _) => h4 o /= K1 [K2 Ko] K3.
have NU : all (fun r => uniq (r_pos r)) WR -> pairwise apart WR ->
   all (fun r => uniq (r_pos r)) [:: v; al; be; Q] /\ pairwise apart [:: v; al; be; Q].
  move=> H1 H2; split.
    move: H1; rewrite /WR all_pmap /= uv => /and4P[q1 q2 q3 _]; rewrite ua ?ub ?uQ //; by case: (wQ) q3 => // [[[]]].
  have Av r : (size hv1 <= r_at r)%N -> apart v r by move=> hr; case: (apart_lt lv1 hr).
  have Av' r : (r_at r < size h)%N -> apart v r by move=> hr; case: (apart_lt hr lv0).
  have Aa r : (size h1 <= r_at r)%N -> apart al r by move=> hr; case: (apart_lt la hr).
  have Ab r : (size h2 <= r_at r)%N -> apart be r by move=> hr; case: (apart_lt lb hr).
  have Hlt n1 r1 r2 : (r_at r2 < size h)%N -> (size h <= n1)%N -> (n1 <= r_at r1)%N -> apart r1 r2.
    by move=> q1 q2 q3; case: (apart_lt q1 (leq_trans q2 q3)).
  have up1 r : (size h1 <= r_at r)%N -> (size hv1 <= r_at r)%N by apply: leq_trans.
  have up2 r : (size h2 <= r_at r)%N -> (size h1 <= r_at r)%N by apply: leq_trans.
  have q1 : apart v al by case: (wa) fa ha' => [ra -> /Av'|/Av].
  have q2 : apart v be by case: (wb) fb hb' => [rb -> /Av'|/up1/Av].
  have q3 : apart v Q by case: (wQ) fQ hQ => [[[? ?] rQ] -> /Av'|/up2/up1/Av].
  rewrite /WR in H2.
  have q4 : apart al be.
    case: (wb) fb hb' H2 => [rb ->|/Aa //] hb'; case: (wa) fa => [ra -> /=|fa _]; last exact: Hlt sh fa.
    by case/andP => /andP[].
  have q5 : apart al Q.
    case: (wQ) fQ hQ H2 => [[[? ?] rQ] ->|/up2/Aa //] hQ'; case: (wa) fa => [ra -> /=|fa _]; last exact: Hlt sh fa.
    by case: (wb) => [rb|] /=; rewrite ?andbT => // /andP[/andP[]].
  have q6 : apart be Q.
    case: (wQ) fQ hQ H2 => [[[? ?] rQ] ->|/Ab //] hQ'; case: (wb) fb => [rb -> /=|fb _]; last exact: Hlt s1 fb.
    by case: (wa) => [ra|] /=; rewrite ?andbT => // /andP[].
  by rewrite /= q1 q2 q3 q4 q5 q6.
split.
- move=> No r hr aW; rewrite -E0 //; have L : load h4 r = load h3 r; [|by case: Ko No => ->].
  move: aW; rewrite /WR all_pmap /= => /and4P[q1 q2 q3 _].
  apply: K1.
  - by case: (apart_lt hr lv0).
  - case: (wa) fa q1 => [ra -> /=|fa _]; first by rewrite apartC.
    by case: (apart_lt hr (leq_trans sh fa)).
  - case: (wb) fb q2 => [rb -> /=|fb _]; first by rewrite apartC.
    by case: (apart_lt hr (leq_trans s1 fb)).
  - case: (wQ) fQ q3 => [[[? ?] rQ] -> /=|fQ _]; first by rewrite apartC.
    by case: (apart_lt hr (leq_trans s2 fQ)).
- move=> H1 H2; have [U1 U2] := NU H1 H2; move: (K3 U1 U2); rewrite /lseen.
  case: (lanczos_recurrence _ _ _ _ _ _ _ _ _ _) => [st|]; last by case=> _ ->.
  by case=> -> /= [] ; case: (b_out bd) => -[-> -> ->]; rewrite ?EQ0.
- by case: Ko => ->.
Qed.

(* ---- quadrature ------------------------------------------------------------------------------------ *)
Lemma goodp_ext h (p : heap * outcome href) (v : res (eres F)) : goodp (size h) h p v -> ext h p.1.
Proof. by case=> -[s f] _ _; split=> // a ha; rewrite f. Qed.

Lemma h_quad_ruleP h d e deg quad method mi : (r_at d < size h)%N -> (r_at e < size h)%N ->
  let p := h_quad_rule lap_vals lap_pairs junk h d e deg quad method mi in
  ext h p.1 /\ p.2 = quad_rule lap_vals lap_pairs (load h d) (load h e) deg quad method mi.
Proof.
move=> hd he; rewrite /h_quad_rule /quad_rule; case: ifP => _.
  have hd' : (r_at (vslice deg d) < size h)%N by [].
  have he' : (r_at (vslice deg e) < size h)%N by [].
  have gp := h_tridiagP true method mi hd' he'; have := goodp_ext gp; case: gp => _.
  rewrite /eigh_tridiag !load_slice /seen; case: (h_tridiag _ _ _ _ _ _ _ _ _) => h' o /= E _ x.
  by case: o E => [| |y|[w|w Y]]; case: (tridiag_front _ _ _ _ _ _ _) => [[w'|w' Y'|]|y'] //= [] // -> // ->.
case: ifP => _ //.
have gp := h_tridiagP false method mi hd he; have := goodp_ext gp; case: gp => _.
rewrite /eigvalsh_tridiag /seen; case: (h_tridiag _ _ _ _ _ _ _ _ _) => h' o /= E _ x.
have Ld := ext_load x hd; have Le := ext_load x he.
by case: o E => [| |y|[w|w Y]]; case: (tridiag_front _ _ _ _ _ _ _) => [[w'|w' Y'|]|y'] //= [] // -> //=; rewrite Ld Le.
Qed.

Lemma h_quadratureP h d e deg quad nodes weights method mi : (r_at d < size h)%N -> (r_at e < size h)%N ->
  let p := h_quadrature lap_vals lap_pairs junk h d e deg quad nodes weights method mi in
  ext h p.1 /\ p.2 = quadrature lap_vals lap_pairs (load h d) (load h e) deg quad nodes weights method mi.
Proof.
move=> hd he; rewrite /h_quadrature /quadrature !size_load; set dg := (if deg is Some _ then _ else _).
set e1 := (if _ then alloc _ _ else _).
have [h1 [E1 x1 l1 L1]] : exists h1, [/\ e1 = (h1, e1.2), ext h h1, (r_at e1.2 < size h1)%N &
   load h1 e1.2 = if (size (r_pos e)).+1 == size (r_pos d) then 0 :: load h e else load h e].
  rewrite /e1; case: ifP => _; last by exists h; split.
  exists (rcons h (0 :: load h e)); split=> //; first exact: ext_alloc.
    by rewrite size_rcons.
  exact: (load_fresh h (0 :: load h e)).
rewrite -L1 E1; move: e1.2 l1 L1 => e2 l1 L1 {E1 e1}; rewrite size_load.
have s1 : (size h <= size h1)%N by case: x1.
have hd1 : (r_at d < size h1)%N by apply: leq_trans s1.
case: ifP => _; first by [].
case: ifP => _; first by [].
case: ifP => _; first by [].
have [x2 E2] := h_quad_ruleP dg quad method mi hd1 l1; rewrite (ext_load x1) // in E2.
have {x1 x2}x3 : ext h (h_quad_rule lap_vals lap_pairs junk h1 d e2 dg quad method mi).1 by apply: ext_trans x2.
move: E2 x3; case: (h_quad_rule _ _ _ _ _ _ _ _ _ _) => h' o /= -> x3.
by case: (quad_rule _ _ _ _ _ _ _ _) => [| |y|[th ta]] //=.
Qed.
Theorem C52_quadrature h d e deg quad nodes weights method mi : (r_at d < size h)%N -> (r_at e < size h)%N ->
  let p := h_quadrature lap_vals lap_pairs junk h d e deg quad nodes weights method mi in
  (forall a, (a < size h)%N -> buf p.1 a = buf h a) /\
  p.2 = quadrature lap_vals lap_pairs (load h d) (load h e) deg quad nodes weights method mi.
Proof. by move=> hd he; have [[_ x] E] := h_quadratureP deg quad nodes weights method mi hd he. Qed.

(* ---- MatrixFunction ---------------------------------------------------------------------------------- *)
Definition obj_refs (o : hmf F) : seq ref := [:: hm_alpha o; hm_beta o; hm_Q o].
(* its work arrays exist and do not overlap *)
Definition obj_ok h (o : hmf F) : bool :=
  all (fun r => (r_at r < size h)%N && uniq (r_pos r)) (obj_refs o) && pairwise apart (obj_refs o).

Lemma hm_val_eq h h' o : load h' (hm_alpha o) = load h (hm_alpha o) -> load h' (hm_beta o) = load h (hm_beta o) ->
  load h' (hm_Q o) = load h (hm_Q o) -> hm_val h' o = hm_val h o.
Proof. by rewrite /hm_val => -> -> ->. Qed.
Lemma hm_val_ext h h' o : obj_ok h o -> ext h h' -> hm_val h' o = hm_val h o.
Proof. by case/andP => /and4P[/andP[ha _] /andP[hb _] /andP[hQ _] _] _ x; apply: hm_val_eq; apply: (ext_load x). Qed.
Lemma obj_ok_grow h h' o : (size h <= size h')%N -> obj_ok h o -> obj_ok h' o.
Proof.
move=> s /andP[/and4P[/andP[ha ua] /andP[hb ub] /andP[hQ uQ] _] p].
by rewrite /obj_ok p andbT /= ua ub uQ !(leq_trans _ s).
Qed.

Lemma h_mflanczosP n (A : 'M[F]_n) k dA h o x : obj_ok h o -> uniq (r_pos x) -> all (apart x) (obj_refs o) ->
  let p := h_mflanczos eps A k dA h o x in
  [/\ forall r, apart x r -> all (apart r) (obj_refs o) -> load p.1 r = load h r, (size h <= size p.1)%N &
  match mf_lanczos eps A k dA (hm_val h o) (load h x) with
  | Undef => p = (h, Undef) | NonFin => False | Raise y => p = (h, Raise y)
  | Ret M' => p.2 = Ret tt /\ hm_val p.1 o = M'
  end].
Proof.
case/andP => /and4P[/andP[ha ua] /andP[hb ub] /andP[hQ uQ] _] pw ux ax.
rewrite /h_mflanczos /mf_lanczos /=; case: (mf_resolve _ _ _) => [bd|] //; case: ifP => _ //.
have [K1 [[K2 _] K3]] := h_kernelP A h bd x (mf_deg (hm_M o)) (mf_rtol F) (mf_orth (hm_M o)) (hm_alpha o) (hm_beta o) (hm_Q o) (mf_deg (hm_M o)).
have U1 : all (fun r => uniq (r_pos r)) [:: x; hm_alpha o; hm_beta o; hm_Q o] by rewrite /= ux ua ub uQ.
have U2 : pairwise apart [:: x; hm_alpha o; hm_beta o; hm_Q o] by rewrite [pairwise _ _]/(all _ (obj_refs o) && pairwise apart (obj_refs o)) ax pw.
move: {K3}(K3 U1 U2) => K3.
split=> //.
  by move=> r a0 /and4P[a1 a2 a3 _]; apply: K1 => //; rewrite apartC.
case: (lanczos_recurrence _ _ _ _ _ _ _ _ _ _) K3 => [st|] // -[-> E]; split=> //.
by rewrite /hm_val; case: (b_out bd) E => -[-> -> ->].
Qed.

Theorem C52_matvec n (A : 'M[F]_n) k dA h o x : obj_ok h o -> (r_at x < size h)%N ->
  let p := h__matvec lap_vals lap_pairs junk eps A k dA h o x in
  let x' := load (store h (hm_Q o) (nseq (size (r_pos (hm_Q o))) 0)) x in
  [/\ p.2 <> Undef -> forall r, (r_at r < size h)%N -> all (apart r) (obj_refs o) -> load p.1 r = load h r,
      (p.2, hm_val p.1 o) = mf__matvec eps lap_vals lap_pairs A k dA (hm_val h o) x',
      apart x (hm_Q o) -> x' = load h x & (size h <= size p.1)%N].
Proof.
move=> ok hx p x'; have [/and4P[/andP[ha ua] /andP[hb ub] /andP[hQ uQ] _] pw] := andP ok.
have /and3P[/and3P[ab aQ _] /andP[bQ _] _] := pw.
suff [H1 H2 H3] : [/\ forall r, (r_at r < size h)%N -> all (apart r) (obj_refs o) -> load p.1 r = load h r,
      (p.2, hm_val p.1 o) = mf__matvec eps lap_vals lap_pairs A k dA (hm_val h o) x' & (size h <= size p.1)%N].
  by split=> // ax; rewrite /x' load_store_apart // apartC.
rewrite /p /h__matvec /mf__matvec.
set h1 := store h _ _.
have s1 : size h1 = size h by rewrite size_store_in.
have L1 r : apart r (hm_Q o) -> load h1 r = load h r by move=> ar; rewrite load_store_apart // apartC.
have V1 : hm_val h1 o = zero_Q (hm_val h o).
  have LQ : load h1 (hm_Q o) = nseq (size (r_pos (hm_Q o))) 0 by apply: load_store_same; rewrite ?size_nseq.
  by rewrite /hm_val /zero_Q /= LQ (L1 (hm_alpha o)) // (L1 (hm_beta o)) // size_load.
rewrite /copy /alloc /=; set h2 := rcons h1 _; set xr := Ref _ _.
have e12 : ext h1 h2 by apply: ext_alloc.
have ok1 : obj_ok h1 o by apply: obj_ok_grow ok; rewrite s1.
have ok2 : obj_ok h2 o by apply: obj_ok_grow ok1; case: e12.
have V2 : hm_val h2 o = zero_Q (hm_val h o) by rewrite (hm_val_ext ok1).
have X2 : load h2 xr = x' by apply: load_fresh.
have ax : all (apart xr) (obj_refs o).
  apply/and4P; split=> //; [have hr := ha|have hr := hb|have hr := hQ]; rewrite -s1 in hr;
    by case: (@apart_lt (size h1) _ xr hr _).
have [M1 M2 M3] := h_mflanczosP A k dA ok2 (iota_uniq _ _ : uniq (r_pos xr)) ax.
have R2 r : (r_at r < size h)%N -> all (apart r) (obj_refs o) -> load (h_mflanczos eps A k dA h2 o xr).1 r = load h r.
  move=> hr ar; rewrite M1 //; last by rewrite -s1 in hr; case: (@apart_lt (size h1) _ xr hr _).
  by rewrite (ext_load e12) ?s1 // L1 //; case/and4P: ar.
rewrite X2; move: M2 M3 R2; rewrite V2 X2 /=.
case: (h_mflanczos _ _ _ _ _ _ _) => h3 r3 /=.
case: (mf_lanczos _ _ _ _ _ _) => [| |y|M'] M2 //; try by case=> -> -> R2; split=> //=; rewrite ?V2 // size_rcons s1.
case=> -> EM R2.
have s3 : (size h <= size h3)%N by apply: leq_trans M2; rewrite size_rcons s1.
have -> : mf_deg M' = mf_deg (hm_M o) by rewrite -EM.
have -> : mf_alpha M' = load h3 (hm_alpha o) by rewrite -EM.
have -> : mf_beta M' = load h3 (hm_beta o) by rewrite -EM.
have -> : mf_Q M' = load h3 (hm_Q o) by rewrite -EM.
have -> : mf_fun M' = mf_fun (hm_M o) by rewrite -EM.
set rd := vtake _ _; set re := vdrop _ _.
have hd : (r_at rd < size h3)%N by apply: leq_trans s3.
have he : (r_at re < size h3)%N by apply: leq_trans s3.
have gp := h_tridiagP true "auto" 30 hd he; have := goodp_ext gp; case: gp => _.
rewrite /eigh_tridiag /rd /re load_drop !load_take -/rd -/re /seen.
case: (h_tridiag _ _ _ _ _ _ _ _ _) => h4 r4 /= E _ x4.
have ok3 : obj_ok h3 o by apply: obj_ok_grow ok.
have R4 r : (r_at r < size h)%N -> all (apart r) (obj_refs o) -> load h4 r = load h r.
  by move=> hr ar; rewrite (ext_load x4) ?R2 // (leq_trans hr s3).
have EM4 : hm_val h4 o = M' by rewrite (hm_val_ext ok3).
have s4 : (size h <= size h4)%N by case: x4 => x4 _; apply: leq_trans x4.
have EQ : load h4 (hm_Q o) = load h3 (hm_Q o) by rewrite (ext_load x4) // (leq_trans hQ s3).
by case: r4 E => [| |y|[w|w Y]]; case: (tridiag_front _ _ _ _ _ _ _) => [[w'|w' Y'|]|y'] //= E; split=> //=;
  rewrite ?EQ EM4 //; case: E => -> // ->.
Qed.

Lemma h_quad1P n (A : 'M[F]_n) k dA h o xc : obj_ok h o -> uniq (r_pos xc) -> all (apart xc) (obj_refs o) ->
  let p := h_quad1 lap_vals lap_pairs junk eps A k dA h o xc in
  [/\ forall r, (r_at r < size h)%N -> apart xc r -> all (apart r) (obj_refs o) -> load p.1.1 r = load h r,
      (size h <= size p.1.1)%N, obj_refs p.2 = obj_refs o &
      (p.1.2, hm_val p.1.1 p.2) = mf_quad1 eps lap_vals lap_pairs A k dA (hm_val h o) (load h xc)].
Proof.
move=> ok ux ax; rewrite /h_quad1 /mf_quad1.
have [M1 M2 M3] := h_mflanczosP A k dA ok ux ax; move: M1 M2 M3.
case: (h_mflanczos _ _ _ _ _ _ _) => h3 r3 /= M1 M2.
case: (mf_lanczos _ _ _ _ _ _) => [| |y|M'] //; try by case=> -> ->.
case=> -> EM.
have -> : mf_deg M' = mf_deg (hm_M o) by rewrite -EM.
have -> : mf_alpha M' = load h3 (hm_alpha o) by rewrite -EM.
have -> : mf_beta M' = load h3 (hm_beta o) by rewrite -EM.
have -> : mf_nodes M' = mf_nodes (hm_M o) by rewrite -EM.
have -> : mf_weights M' = mf_weights (hm_M o) by rewrite -EM.
have ok3 : obj_ok h3 o by apply: obj_ok_grow ok.
have [/and4P[/andP[ha _] /andP[hb _] /andP[hQ _] _] _] := andP ok3.
have [] := h_quadratureP (Some (mf_deg (hm_M o) : int)) "gw" (Some (mf_nodes (hm_M o))) (Some (mf_weights (hm_M o))) "auto" 30 ha hb.
case: (h_quadrature _ _ _ _ _ _ _ _ _ _ _ _) => h4 r4 /= x4 ->.
have EM4 : hm_val h4 o = M' by rewrite (hm_val_ext ok3).
have s4 : (size h3 <= size h4)%N by case: x4.
have R4 r : (r_at r < size h)%N -> apart xc r -> all (apart r) (obj_refs o) -> load h4 r = load h r.
  by move=> hr xr ar; rewrite (ext_load x4) ?M1 // (leq_trans hr M2).
case: (quadrature _ _ _ _ _ _ _ _ _ _) => [| |y|q] /=; try by split=> //; [exact: leq_trans M2 s4|rewrite EM4].
split=> //; first exact: leq_trans M2 s4.
rewrite -EM4 /hm_val /=.
by rewrite (ext_load x4 ha) (ext_load x4 hb) (ext_load x4 hQ).
Qed.

Lemma h_quad_loopP n (A : 'M[F]_n) k dA h o xcs : obj_ok h o -> all (fun r => (r_at r < size h)%N && uniq (r_pos r)) xcs ->
  pairwise apart xcs -> all (fun r => all (apart r) (obj_refs o)) xcs ->
  let p := h_quad_loop lap_vals lap_pairs junk eps A k dA h o xcs in
  [/\ forall r, (r_at r < size h)%N -> all (apart r) xcs -> all (apart r) (obj_refs o) -> load p.1.1 r = load h r,
      (size h <= size p.1.1)%N, obj_refs p.2 = obj_refs o &
      (p.1.2, hm_val p.1.1 p.2) = mf_quad eps lap_vals lap_pairs A k dA (hm_val h o) [seq load h r | r <- xcs]].
Proof.
elim: xcs h o => [|xc xcs IH] h o ok //= /andP[/andP[hx ux] hxs] /andP[px pxs] /andP[ax axs].
have [R1 s1 o1 E1] := h_quad1P A k dA ok ux ax; move: R1 s1 o1 E1.
case: (h_quad1 _ _ _ _ _ _ _ _ _ _) => [[h1 r1] o1] /= R1 s1 Eo1 <-.
have ok1 : obj_ok h1 o1 by rewrite /obj_ok Eo1; apply: obj_ok_grow ok.
have hxs1 : all (fun r => (r_at r < size h1)%N && uniq (r_pos r)) xcs.
  by apply/allP => r /(allP hxs) /andP[q1 q2]; rewrite (leq_trans q1 s1).
have axs1 : all (fun r => all (apart r) (obj_refs o1)) xcs by rewrite Eo1.
have Lx : [seq load h1 r | r <- xcs] = [seq load h r | r <- xcs].
  apply/eq_in_map => r hr; have /andP[q1 _] := allP hxs r hr.
  by rewrite R1 // ?(allP px r hr) ?(allP axs r hr).
have [R2 s2 o2 E2] := IH h1 o1 ok1 hxs1 pxs axs1; move: R2 s2 o2 E2; rewrite Lx.
case: r1 => [| |y|v]; try by move=> _ _ _ _; split=> // r hr /andP[xr _] ar; apply: R1; rewrite // apartC.
case: (h_quad_loop _ _ _ _ _ _ _ _ _ _) => [[h2 r2] o2] /= R2 s2 Eo2 <-.
have {}R2 r : (r_at r < size h1)%N -> all (apart r) xcs -> all (apart r) (obj_refs o1) -> load h2 r = load h1 r by apply: R2.
split=> //; [move=> r hr /andP[xr xsr] ar|exact: leq_trans s1 s2|by rewrite Eo2].
 rewrite R2 ?Eo1 ?(leq_trans hr s1) //.
by rewrite R1 // apartC.
Qed.

(* quad: no condition on where the argument lies *)
Theorem C52_quad n (A : 'M[F]_n) k dA h o X : obj_ok h o -> (m_at X < size h)%N ->
  let p := h_quad lap_vals lap_pairs junk eps A k dA h o X in
  [/\ p.1.2 <> Undef -> forall r, (r_at r < size h)%N -> all (apart r) (obj_refs o) -> load p.1.1 r = load h r,
      (p.1.2, hm_val p.1.1 p.2) = mf_quad eps lap_vals lap_pairs A k dA (hm_val h o) (mload h X),
      obj_refs p.2 = obj_refs o & (size h <= size p.1.1)%N].
Proof.
move=> ok hX; rewrite /h_quad /malloc; set Y := mload h X; set h1 := rcons h _; set Z := MRef _ _.
have e1 : ext h h1 by apply: ext_alloc.
have ok1 : obj_ok h1 o by apply: obj_ok_grow ok; case: e1.
set xcs := [seq _ | c <- _].
have [RX SX] := malloc_rows Y.
have Eload : [seq load h1 r | r <- xcs] = Y.
  by rewrite /xcs -map_comp -[RHS](mload_fresh h Y).
have at1 r : r \in xcs -> r_at r = size h by case/mapP => c _ ->.
have [q1 q2] : all (fun r => (r_at r < size h1)%N && uniq (r_pos r)) xcs /\ pairwise apart xcs.
  have : uniq (flatten (m_rows Z)) by rewrite RX iota_uniq.
  rewrite /xcs size_rcons; elim: (m_rows Z) => [|c cs IH] //=; rewrite cat_uniq => /and3P[uc nc /IH[i1 i2]].
  rewrite ltnSn uc i1 i2; split=> //; rewrite andbT all_map; apply/allP => c' hc' /=.
  rewrite /apart eqxx /=; apply: contra nc => /hasP[i hi ic]; apply/hasP; exists i => //.
  by apply/flattenP; exists c'.
have q3 : all (fun r => all (apart r) (obj_refs o)) xcs.
  apply/allP => r hr; apply/allP => r' hr'.
  have /andP[/allP/(_ r' hr') /andP[lt _] _] := ok.
  by case: (@apart_lt (size h) r' r lt _); rewrite ?at1.
have [R s Eo E] := h_quad_loopP A k dA ok1 q1 q2 q3; split=> //.
- move=> _ r hr ar; rewrite R //; first exact: ext_load.
    by apply: leq_trans hr _; case: e1.
  by apply/allP => r' hr'; case: (@apart_lt (size h) r r' hr _); rewrite ?at1.
- by rewrite E Eload (hm_val_ext ok).
- by apply: leq_trans s; case: e1.
Qed.

(* whole histories: caller's arrays stay as they are and the object behaves as if
   each call got the numbers that were in its argument at the beginning *)
Definition call_ok h (o : hmf F) (c : hcall) : bool :=
  match c with
  | HMatvec x => (r_at x < size h)%N && all (apart x) (obj_refs o)
  | HQuad X => (m_at X < size h)%N && all (fun c => all (apart (Ref (m_at X) c)) (obj_refs o)) (m_rows X)
  end.
Definition call_val h (c : hcall) : mfcall F :=
  match c with HMatvec x => CMatvec (load h x) | HQuad X => CQuad (mload h X) end.

Theorem C52_history n (A : 'M[F]_n) k dA h o cs M : obj_ok h o -> all (call_ok h o) cs ->
  mf_run eps lap_vals lap_pairs A k dA (hm_val h o) [seq call_val h c | c <- cs] = Some M ->
  let p := h_run lap_vals lap_pairs junk eps A k dA h o cs in
  hm_val p.1 p.2 = M /\ forall r, (r_at r < size h)%N -> all (apart r) (obj_refs o) -> load p.1 r = load h r.
Proof.
elim: cs h o => [|c cs IH] h o ok /=; first by move=> _ [<-].
case/andP => hc hcs.
have [R s Eo E] : let p := h_call lap_vals lap_pairs junk eps A k dA h o c in
  [/\ p.1.2 <> Undef -> forall r, (r_at r < size h)%N -> all (apart r) (obj_refs o) -> load p.1.1 r = load h r,
      (size h <= size p.1.1)%N, obj_refs p.2 = obj_refs o &
      (p.1.2, hm_val p.1.1 p.2) = mf_call eps lap_vals lap_pairs A k dA (hm_val h o) (call_val h c)].
  case: c hc => [x|X] /andP[hx ax] /=.
    rewrite /mf_matvec size_load /=; case: ifP => _ //.
    have [R E Ex s] := C52_matvec A k dA ok hx.
    have {}Ex := Ex _; have /and4P[_ _ xQ _] := ax; rewrite Ex // in E; move: R E s.
    by case: (h__matvec _ _ _ _ _ _ _ _ _ _) => h1 r1 /= R <- s.
  by have [R E Eo s] := C52_quad A k dA ok hx.
move: R s Eo E; case: (h_call _ _ _ _ _ _ _ _ _ _) => [[h1 r1] o1] /= R s Eo <-.
have ok1 : obj_ok h1 o1 by rewrite /obj_ok Eo; apply: obj_ok_grow ok.
move=> Hrun; have Rn : r1 <> Undef by case: r1 Hrun {R}.
have {}R := R Rn.
have Ec : [seq call_val h1 c | c <- cs] = [seq call_val h c | c <- cs].
  apply/eq_in_map => c' /(allP hcs); case: c' => [x|X] /andP[hx ax] /=; first by rewrite R.
  congr CQuad; apply/eq_in_map => q hq; have := R (Ref (m_at X) q) hx (allP ax q hq).
  by rewrite /load.
have hcs1 : all (call_ok h1 o1) cs.
  by apply/allP => c' /(allP hcs); case: c' => [x|X] /andP[hx ax]; rewrite /call_ok Eo ax (leq_trans hx s).
have [|i1 i2] := IH h1 o1 ok1 hcs1.
  by rewrite Ec; case: r1 Hrun {Rn}.
split=> // r hr ar; rewrite i2 ?Eo ?R //; exact: leq_trans hr s.
Qed.

(* a new object meets the conditions *)
Theorem C52_new h (M : mfobj F) :
  [/\ obj_ok (h_new h M).1 (h_new h M).2, hm_val (h_new h M).1 (h_new h M).2 = M,
      forall r, (r_at r < size h)%N ->
        [&& r_at r < size (h_new h M).1 & all (apart r) (obj_refs (h_new h M).2)]%N &
      forall r, (r_at r < size h)%N -> load (h_new h M).1 r = load h r].
Proof.
rewrite /h_new /alloc /=; set h1 := rcons h _; set h2 := rcons h1 _; set h3 := rcons h2 _.
have e1 : ext h h1 by apply: ext_alloc.
have e2 : ext h1 h2 by apply: ext_alloc.
have e3 : ext h2 h3 by apply: ext_alloc.
have s1 : size h1 = (size h).+1 by rewrite size_rcons.
have s2 : size h2 = (size h).+2 by rewrite size_rcons s1.
have s3 : size h3 = (size h).+3 by rewrite size_rcons s2.
split.
- rewrite /obj_ok /obj_refs /= s3 s2 s1 !iota_uniq !ltnS leqnn leqnSn (leqW (leqnSn _)) /= /apart /=.
  by rewrite !neq_ltn !ltnSn leqnSn.
- have La : load h3 (Ref (size h) (iota 0 (size (mf_alpha M)))) = mf_alpha M.
    rewrite (ext_load e3) /= ?s2 ?ltnS ?leqnSn // (ext_load e2) /= ?s1 //; exact: load_fresh.
  have Lb : load h3 (Ref (size h1) (iota 0 (size (mf_beta M)))) = mf_beta M.
    by rewrite (ext_load e3); [exact: load_fresh|rewrite /= s2 s1].
  have Lq : load h3 (Ref (size h2) (iota 0 (size (mf_Q M)))) = mf_Q M by apply: load_fresh.
  by rewrite /hm_val /= La Lb Lq; case: (M).
- move=> r hr; rewrite /obj_refs /= /apart /= s3 s2 s1 !neq_ltn hr !(leq_trans hr) ?leqnSn //.
    by rewrite !(leqW, leqnn).
  by rewrite !(leqW, leqnn).
- by move=> r hr; rewrite (ext_load e3) ?s2 ?(ext_load e2) ?s1 ?(ext_load e1) // !leqW.
Qed.
End P.

(* The kernels do overwrite their arguments: called directly on the arrays of the
   caller, tqli replaces d by the eigenvalues. *)
Theorem C52_copies_needed (F : rcfType) (junk : seq F) :
  let h := [:: [:: 0; 1]; [:: 0; 2%:R / 3%:R]; [:: 1; 0; 0; 1]] : heap F in
  let d := Ref 0 [:: 0; 1]%N in let e := Ref 1 [:: 0; 1]%N in let Z := MRef 2 [:: [:: 0; 1]; [:: 2; 3]]%N in
  load (h_tqli junk h d e Z 30).1 d = [:: - (1 / 3%:R); 4%:R / 3%:R] /\ load h d = [:: 0; 1].
Proof.
move=> h d e Z; have ow : own 0 h d e Z by [].
have [_] := h_tqliP junk 30 ow isT; have [x [E [_ _ Ed]]] := @C63_ex F 30 isT.
have -> : mload h Z = eye F 2 by [].
by rewrite E => -[_ [-> _]].
Qed.

Section Ex.
Variable F : rcfType.
Variables (fexp flog : F -> F) (feps eps : F) (junk : seq F).
Hypothesis eps0 : 0 <= eps.
Notation lv := (@ref_vals F).
Notation lp := (@ref_pairs F).

(* two overlapping vectors of the caller, passed to quad and then to matvec: the
   conditions of C52_history hold for the new object *)
Example C52_ex : let h0 := [:: [:: 1; 0; 0; 0; 1]] : heap F in
  let cs := [:: HQuad (MRef 0 [:: [:: 0; 1; 2]]); HMatvec (Ref 0 [:: 2; 3; 4])]%N in
  exists M0 M, [/\ mf_init fexp flog feps (sq_array 3) (fcall (fun t : F => Fin (t ^+ 2))) (no_kw F) 20 2 F64 = Ok M0,
    let p := h_new h0 M0 in obj_ok p.1 p.2 && all (call_ok p.1 p.2) cs &
    let p := h_new h0 M0 in
    mf_run eps lv lp (P3 0) KDense F64 (hm_val p.1 p.2) [seq call_val p.1 c | c <- cs] = Some M].
Proof.
move=> h0 cs; have [M0 [M [E0 R _ _ _]]] := C59_ex fexp flog feps eps0; exists M0, M.
have := C52_new h0 M0; case: (h_new h0 M0) => h o [ok Ev ap L].
have {}ok : obj_ok h o := ok; have {}Ev : hm_val h o = M0 := Ev.
have {}L r : (r_at r < 1)%N -> load h r = load h0 r by apply: L.
split=> //.
  have /and5P[/= -> -> -> -> _] := ap (Ref 0 [:: 0; 1; 2]%N) isT.
  by have /and5P[/= _ -> -> -> _] := ap (Ref 0 [:: 2; 3; 4]%N) isT; rewrite ok.
have L1 := L (Ref 0 [:: 0; 1; 2]%N) isT; have L2 := L (Ref 0 [:: 2; 3; 4]%N) isT.
have EC : [seq call_val h c | c <- cs] = [:: CQuad [:: e3 F 0]; CMatvec (e3 F 2)].
  transitivity ([:: CQuad [:: load h (Ref 0 [:: 0; 1; 2]%N)]; CMatvec (load h (Ref 0 [:: 2; 3; 4]%N))] : seq (mfcall F)); first by [].
  by rewrite L1 L2.
by rewrite -R -Ev -EC.
Qed.

(* overlapping arguments of eigh_tridiag; LAPACK succeeds *)
Example C52_ex2 : let h := [:: [:: 1; 2%:R; 3%:R]] : heap F in
  let d := Ref 0 [:: 0; 1]%N in let e := Ref 0 [:: 1]%N in
  [/\ (r_at d < size h)%N, (r_at e < size h)%N, load h d = [:: 1; 2%:R], load h e = [:: 2%:R] &
      exists w Y, tridiag_front lv lp (load h d) (load h e) true "auto" 30 = Ok (EPairs w Y)].
Proof.
split=> //; have [w [Y [E _]]] := ref_pairs_ok [:: 1; 2%:R : F] [:: 2%:R : F]; exists w, Y.
by rewrite /tridiag_front /= /eigh_internal /= /eigh_mrrr /= E.
Qed.
(* work arrays inside one buffer, and a start vector overlapping one of them *)
Example C52_ex3 : let h := [:: [:: 1; 2%:R; 3%:R; 4%:R; 5%:R; 6%:R]; [:: 0; 0; 0; 0]] : heap F in
  let w := (HWork (Some (Ref 0 [:: 0; 1; 2])) (Some (Ref 0 [:: 3; 4; 5])) (Some (2, 2, Ref 1 [:: 0; 1; 2; 3])) true)%N in
  let v0 := (Ref 0 [:: 1; 2])%N in
  [/\ all (fun r => r_at r < size h)%N (v0 :: work_refs w), all (fun r => uniq (r_pos r)) (work_refs w),
      pairwise apart (work_refs w) & load h v0 = [:: 2%:R; 3%:R]].
Proof. by []. Qed.
End Ex.

Print Assumptions C52_tridiag.
Print Assumptions C52_lanczos.
Print Assumptions C52_quadrature.
Print Assumptions C52_matvec.
Print Assumptions C52_quad.
Print Assumptions C52_history.
Print Assumptions C52_new.
Print Assumptions C52_copies_needed.
