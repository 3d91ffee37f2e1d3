(* Frame and read-back lemmas for ModelHeap, and sizes preserved by the kernels. *)
From Coq Require Import String.
From mathcomp Require Import all_ssreflect all_algebra zify.
From Verif Require Import Base ModelTqli ModelLanczos ModelQuadrature ModelSpecial ModelOperators ModelHeap LemTqli.
Set Implicit Arguments.
Unset Strict Implicit.
Unset Printing Implicit Defensive.
Import Order.TTheory GRing.Theory Num.Theory.
Local Open Scope ring_scope.

Section L.
Variable F : rcfType.
Local Notation heap := (heap F).
Implicit Types (h : heap) (r : ref) (xs : seq F).

(* ---- sizes ------------------------------------------------------------------------------- *)
Lemma split_bound (d e : seq F) k it : (it <= split d e k it <= it + k)%N.
Proof.
elim: k it => [|k IH] it /=; first by rewrite addn0 leqnn.
by case: ifP => _; [lia|have := IH it.+1; lia].
Qed.

Lemma shape_rot i (s c : F) (Z : seq (seq F)) n : (i.+1 < n)%N -> all (fun u => size u == n) Z ->
  shape (map (rot_row i s c) Z) = shape Z /\ all (fun u => size u == n) (map (rot_row i s c) Z).
Proof.
move=> hi; elim: Z => [//|u Z IH] /= /andP[/eqP su /IH[IH1 IH2]].
by rewrite IH1 IH2 size_rot_row ?su // eqxx.
Qed.

Lemma rotations_size n it m k w (d e : seq F) Z : (it + k <= m < n)%N -> size d = n -> size e = n ->
  all (fun u => size u == n) Z ->
  let: (_, d', e', Z') := rotations it m k w d e Z in
  [/\ size d' = n, size e' = n, shape Z' = shape Z & all (fun u => size u == n) Z'].
Proof.
elim: k w d e Z => [//|k IH] w d e Z hm sd se sZ /=.
case: ifP => _ /=; first by rewrite !size_set //; rewrite ?size_set ?sd ?se //; clear -hm; lia.
set i := (it + k)%N; set s := _ / _; set c := _ / _; set d1 := set_nth _ d _ _; set e1 := set_nth _ e _ _.
have hi : (i.+1 < n)%N by rewrite /i; clear -hm; lia.
have [sh al] := shape_rot s c hi sZ.
have := IH (Sweep s c (s * ((d`_i - (d`_i.+1 - w_p w)) * s + 2%:R * c * (w_c w * e`_i)))
  (c * ((d`_i - (d`_i.+1 - w_p w)) * s + 2%:R * c * (w_c w * e`_i)) - w_c w * e`_i)
  ((d`_i - (d`_i.+1 - w_p w)) * s + 2%:R * c * (w_c w * e`_i))) d1 e1 (map (rot_row i s c) Z).
case: (rotations _ _ _ _ _ _ _) => [[[w' d'] e'] Z'].
rewrite sh al; apply => //; try by rewrite size_set ?sd ?se.
by clear -hm; lia.
Qed.

Lemma ql_size fuel n it mi ii (x x' : tqst F) : (it < n)%N -> ql fuel n it mi ii x = TOk x' ->
  size (x_d x) = n -> size (x_e x) = n -> all (fun u => size u == n) (x_Z x) ->
  [/\ size (x_d x') = n, size (x_e x') = n, shape (x_Z x') = shape (x_Z x) & all (fun u => size u == n) (x_Z x')].
Proof.
move=> hit; elim: fuel ii x => [//|fuel IH] ii [d e Z ab cp] /=.
have := split_bound d e (n.-1 - it) it; set m := split _ _ _ _ => hm.
case: ifP => [mn|_]; last by case=> <-.
case: ifP => [_ [<-] //|_]; case: ifP => // _.
set w0 := Sweep _ _ _ _ _ => + sd se sZ.
have hb : (it + (m - it) <= m < n)%N by clear -hm hit mn; lia.
have := @rotations_size n it m (m - it) w0 d e Z hb sd se sZ.
case: (rotations _ _ _ _ _ _ _) => [[[w d'] e'] Z'] [sd' se' sh' al'].
have hm2 : (m < n)%N by clear -hb; lia.
case: ifP => _ E.
  by have [] := IH _ _ E sd' se' al' => ? ? -> ?; rewrite sh'.
have [] := IH _ _ E; rewrite /= ?size_set ?sd' ?se' // ?size_set ?se' //.
by move=> ? ? -> ?; rewrite sh'.
Qed.

Lemma ql_all_size fuel n mi k it (x x' : tqst F) : (it + k = n)%N -> ql_all fuel n mi k it x = TOk x' ->
  size (x_d x) = n -> size (x_e x) = n -> all (fun u => size u == n) (x_Z x) ->
  [/\ size (x_d x') = n, size (x_e x') = n & shape (x_Z x') = shape (x_Z x)].
Proof.
elim: k it x => [|k IH] it x hk /=; first by case=> <-.
case E : (ql _ _ _ _ _ _) => [| |y] // E2 sd se sZ.
have [|sd' se' sh' al'] := ql_size _ E sd se sZ; first by clear -hk; lia.
have hk' : (it.+1 + k = n)%N by clear -hk; lia.
by have [? ? ->] := IH _ _ hk' E2 sd' se' al'; rewrite sh'.
Qed.

Lemma tqli_size fuel (d e : seq F) Z mi x : tqli fuel d e Z mi = Ok (TOk x) -> all (fun u => size u == size d) Z ->
  [/\ size (x_d x) = size d, size (x_e x) = size e & shape (x_Z x) = shape Z].
Proof.
rewrite /tqli; case: eqP => //= se; case: eqP => //= e0; case: ifP => // _ [] E sZ.
have se2 : size (rcons (behead e) 0) = size d by rewrite size_rcons size_behead -se; case: (size d) e0 se; lia.
by have [? ? ?] := ql_all_size (add0n _) E erefl se2 sZ; rewrite -se.
Qed.

(* the kernel keeps the sizes of its buffers: every write is bounds-checked *)
Lemma wr_size (b : seq F) i x b' : wr b i x = Some b' -> size b' = size b.
Proof. by rewrite /wr; case: ifP => // h [<-]; rewrite size_set_nth; apply/maxn_idPr. Qed.
Lemma wrv_size (b : seq F) off xs b' : wrv b off xs = Some b' -> size b' = size b.
Proof. by rewrite /wrv; case: ifP => // h [<-]; rewrite !size_cat size_take size_drop; clear -h; case: ifP; lia. Qed.

Definition ksizes (a b : kst F) : Prop :=
  [/\ size (k_q b) = size (k_q a), size (k_alpha b) = size (k_alpha a), size (k_beta b) = size (k_beta a) &
      size (k_V b) = size (k_V a)].

Variable eps : F.
Lemma kstep_size n m (A : 'M[F]_(n, m)) tol deg orth ncv j p c nx st st' b :
  kstep eps A tol deg orth ncv j p c nx st = Some (st', b) -> ksizes st st'.
Proof.
case: st => q al be V; rewrite /kstep; rewrite /obind /oapp.
case: (rdv _ _ _) => [x|//]; case E1 : (wrv q _ _) => [q1|//]; case: (rd _ _) => [bj|//].
case: (rcol _ _ _) => [qp|//]; case: (rdv _ _ _) => [v1|//]; case: (esubs _ _ _) => [v2|//].
case: (rcol _ _ _) => [qc|//]; case: (edot _ _) => [a|//]; case E2 : (wr al _ _) => [al'|//].
case: (esubs _ _ _) => [v3|//]; case: (if 0 < orth then _ else _) => [v4|//].
case E3 : (wr be _ _) => [be'|//]; case E4 : (wrv q1 _ _) => [q'|//].
have S1 := wrv_size E1; have S2 := wr_size E2; have S3 := wr_size E3; have S4 := wrv_size E4.
case: ifP => _; first by case=> <- _; split=> //=; rewrite S4.
rewrite /wcol; case: ifP => // _; case E5 : (wrv V _ _) => [V'|//] [<- _].
by split=> //=; rewrite ?S4 ?(wrv_size E5).
Qed.

Lemma kloop_size n m (A : 'M[F]_(n, m)) tol deg orth ncv u j p c nx st st' :
  kloop eps A tol deg orth ncv u j p c nx st = Some st' -> ksizes st st'.
Proof.
elim: u j p c nx st => [|u IH] j p c nx st /=; first by case=> <-.
case E : (kstep _ _ _ _ _ _ _ _ _ _ _) => [[s1 b]|//] /=.
have [h1 h2 h3 h4] := kstep_size E; case: b E => _; first by case=> <-.
by case/IH => i1 i2 i3 i4; split; rewrite ?i1 ?i2 ?i3 ?i4.
Qed.

Lemma rec_size n m (A : 'M[F]_(n, m)) q deg rtol orth al be V ncv st :
  lanczos_recurrence eps A q deg rtol orth al be V ncv = Some st -> ksizes (KSt q al be V) st.
Proof.
rewrite /lanczos_recurrence /wcol size_nseq eqxx /obind /oapp.
case E1 : (wrv V _ _) => [V1|//]; case: (rdv _ _ _) => [x|//]; case: ifP => // _.
case E2 : (wrv V1 _ _) => [V2|//]; case E3 : (wr be _ _) => [be'|//] /kloop_size[/= i1 i2 i3 i4].
by split=> //=; rewrite ?i1 ?i2 ?i3 ?i4; rewrite ?(wr_size E3) ?(wrv_size E2) ?(wrv_size E1).
Qed.

(* ---- heaps ------------------------------------------------------------------------------- *)
Lemma put_at_out (b : seq F) ps xs i : i \notin ps -> (put_at b ps xs)`_i = b`_i.
Proof.
elim: ps b xs => [|p ps IH] b [|x xs] //=; rewrite inE negb_or => /andP[ne h].
by rewrite IH // nth_set_nth /= (negPf ne).
Qed.
Lemma put_at_in (b : seq F) ps xs : uniq ps -> size ps = size xs -> [seq (put_at b ps xs)`_i | i <- ps] = xs.
Proof.
elim: ps b xs => [|p ps IH] b [|x xs] //= /andP[np up] [sz].
by rewrite IH // put_at_out // nth_set_nth /= eqxx.
Qed.

Lemma buf_store h r xs a : buf (store h r xs) a = if a == r_at r then put_at (buf h (r_at r)) (r_pos r) xs else buf h a.
Proof. by rewrite /buf /store nth_set_nth /=. Qed.
Lemma load_store_same h r xs : uniq (r_pos r) -> size (r_pos r) = size xs -> load (store h r xs) r = xs.
Proof. by move=> u s; rewrite /load buf_store eqxx put_at_in. Qed.
(* views that do not meet *)
Definition apart (r1 r2 : ref) : bool := (r_at r1 != r_at r2) || ~~ has (mem (r_pos r1)) (r_pos r2).
Lemma load_store_apart h r r' xs : apart r r' -> load (store h r xs) r' = load h r'.
Proof.
rewrite /apart /load buf_store => H; apply/eq_in_map => i hi; case: eqP => [e|//].
move: H; rewrite e eqxx /= => /hasPn /(_ i hi) H; rewrite put_at_out //.
Qed.
Lemma size_store h r xs : (size h <= size (store h r xs))%N.
Proof. by rewrite size_set_nth leq_maxr. Qed.
Lemma size_store_in h r xs : (r_at r < size h)%N -> size (store h r xs) = size h.
Proof. by move=> hr; rewrite size_set_nth; apply/maxn_idPr. Qed.

(* everything below n0 outside W is as before *)
Definition frame (n0 : nat) (W : pred nat) h h' : Prop :=
  (size h <= size h')%N /\ forall a, (a < n0)%N -> ~~ W a -> buf h' a = buf h a.
Lemma frame_refl n0 W h : frame n0 W h h. Proof. by []. Qed.
Lemma frame_trans n0 W h h' h'' : frame n0 W h h' -> frame n0 W h' h'' -> frame n0 W h h''.
Proof. by case=> s1 f1 [s2 f2]; split=> [|a ha hW]; [apply: leq_trans s2|rewrite f2 ?f1]. Qed.
Lemma frame_sub n0 n1 (W W' : pred nat) h h' : (n1 <= n0)%N -> (forall a, W a -> W' a) -> frame n0 W h h' -> frame n1 W' h h'.
Proof.
move=> hn hW [s f]; split=> // a ha nW; apply: f; first exact: leq_trans hn.
by apply: contra nW; apply: hW.
Qed.
Lemma frame_store n0 (W : pred nat) h r xs : (n0 <= r_at r)%N || W (r_at r) -> frame n0 W h (store h r xs).
Proof.
move=> hr; split=> [|a ha nW]; first exact: size_store.
rewrite buf_store; case: eqP => // e; move: hr; rewrite -e leqNgt ha /= (negPf nW).
by [].
Qed.
Lemma frame_alloc n0 W h xs : (n0 <= size h)%N -> frame n0 W h (rcons h xs).
Proof.
move=> hn; split=> [|a ha _]; first by rewrite size_rcons.
by rewrite /buf nth_rcons (leq_trans ha hn).
Qed.
Lemma frame_load n0 W h h' r : frame n0 W h h' -> (r_at r < n0)%N -> ~~ W (r_at r) -> load h' r = load h r.
Proof. by case=> _ f ha nW; rewrite /load f. Qed.
Lemma frame_mload n0 W h h' (r : mref) : frame n0 W h h' -> (m_at r < n0)%N -> ~~ W (m_at r) -> mload h' r = mload h r.
Proof. by case=> _ f ha nW; rewrite /mload f. Qed.

Lemma load_fresh h xs : load (rcons h xs) (Ref (size h) (iota 0 (size xs))) = xs.
Proof. by rewrite /load /buf /= nth_rcons ltnn eqxx; apply: (mkseq_nth 0). Qed.
Lemma mload_fresh h (X : seq (seq F)) :
  mload (rcons h (flatten X)) (MRef (size h) (reshape (shape X) (iota 0 (size (flatten X))))) = X.
Proof.
rewrite /mload /buf /= nth_rcons ltnn eqxx map_reshape.
have -> : [seq (flatten X)`_i | i <- iota 0 (size (flatten X))] = flatten X by apply: (mkseq_nth 0).
exact: flattenK.
Qed.
Lemma load_slice h k r : load h (vslice k r) = slice k (load h r).
Proof. by rewrite /load /slice /= map_take size_map. Qed.
Lemma load_drop h k r : load h (vdrop k r) = drop k (load h r).
Proof. by rewrite /load /= map_drop. Qed.
Lemma load_take h k r : load h (vtake k r) = take k (load h r).
Proof. by rewrite /load /= map_take. Qed.
Lemma size_load h r : size (load h r) = size (r_pos r). Proof. exact: size_map. Qed.
End L.
