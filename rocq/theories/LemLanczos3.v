(* The kernel on concrete buffers, and the front end on fresh ones. *)
From mathcomp Require Import all_ssreflect all_algebra zify ring.
From Verif Require Import Base ModelXtrace LemXtrace ModelLanczos LemLanczos SpecLanczos LemLanczos2.
Set Implicit Arguments.
Unset Strict Implicit.
Unset Printing Implicit Defensive.
Import Order.TTheory GRing.Theory Num.Theory.
Local Open Scope ring_scope.

Section Buf.
Variable F : rcfType.
Variable n : nat.
Implicit Types (A : 'M[F]_n) (V : nat -> 'cV[F]_n).

(* v / |v| (the zero vector stays zero) *)
Definition start (v : 'cV[F]_n) : 'cV[F]_n := (vnorm v)^-1 *: v.

Lemma unitvE v : unitv v = start v.
Proof.
rewrite /unitv /start vnormE; case: ifP => // /negbT; rewrite -leNgt => h.
have z : dt v v = 0 by apply/eqP; rewrite eq_le h dtge0.
by rewrite (dt_eq0P z) scaler0.
Qed.

Lemma start_unit v : v != 0 -> dt (start v) (start v) = 1.
Proof. by move=> h; rewrite dtZl dtZr -vnorm_sq; have : vnorm v != 0 by [rewrite vnorm_eq0]; move: (vnorm v) => x x0; field. Qed.

(* ---- the last column written at slot c after k steps --------------------------- *)
Definition slot (ncv k c : nat) : nat := (k.-1 - (k.-1 - c) %% ncv)%N.

Lemma slot_spec ncv k c : (0 < ncv)%N -> (c < ncv)%N -> (c < k)%N ->
  [/\ (slot ncv k c < k)%N, (k <= slot ncv k c + ncv)%N & (slot ncv k c %% ncv = c)%N].
Proof.
move=> n0 hc ck; have h := ltn_pmod (k.-1 - c) n0; have d := divn_eq (k.-1 - c) ncv; rewrite /slot.
have e : (k.-1 - (k.-1 - c) %% ncv = (k.-1 - c) %/ ncv * ncv + c)%N.
  by move: ((k.-1 - c) %% ncv)%N ((k.-1 - c) %/ ncv * ncv)%N h d => r m h d; lia.
split; [| |by rewrite e modnMDl modn_small].
  by move: ((k.-1 - c) %% ncv)%N => r; lia.
by move: ((k.-1 - c) %% ncv)%N h => r h; lia.
Qed.

Lemma slot_small ncv k c : (c < k)%N -> (k <= ncv)%N -> slot ncv k c = c.
Proof. by move=> h1 h2; rewrite /slot modn_small; lia. Qed.

Lemma flatV_ext ncv V V' : (forall c, (c < ncv)%N -> V c = V' c) -> flatV ncv V = flatV ncv V'.
Proof. by move=> h; congr flatten; apply/eq_in_map => c; rewrite mem_iota add0n => /andP[_ hc]; rewrite h. Qed.

Lemma mkseq_ext (f g : nat -> F) l : f =1 g -> mkseq f l = mkseq g l.
Proof. by move=> h; apply: eq_map. Qed.

(* c-th column of a column-major buffer *)
Definition colv (b : seq F) (c : nat) : 'cV[F]_n := \col_i b`_(c * n + i).

Lemma colv_flat ncv V c : (c < ncv)%N -> colv (flatV ncv V) c = V c.
Proof.
move=> h; apply/colP => i; rewrite mxE -nth_drop -(@nth_take n) //.
by have := rcol_flat V h; rewrite /rcol /rdv; case: ifP => // _ [->]; rewrite nth_cseq.
Qed.

Lemma cvec_drop b c : cvec n (drop (c * n) b) = colv b c.
Proof. by apply/colP => i; rewrite !mxE nth_drop. Qed.

Lemma flat_colv ncv (b : seq F) : size b = (n * ncv)%N -> flatV ncv (colv b) = b.
Proof. by move=> h; rewrite -[RHS](flatVK h); apply: flatV_ext => c _; rewrite cvec_drop. Qed.

Definition onat (orth : int) : nat := if 0 < orth then `|orth|%N else 0%N.

(* what the kernel leaves in the buffers after k steps *)
Definition kfinal A (v : 'cV[F]_n) (k ncv : nat) (alpha beta V : seq F) : kst F :=
  KSt (cseq (lr A (start v) k.-1))
    (mkseq (fun i => if (i < k)%N then la A (start v) i else alpha`_i) (size alpha))
    (mkseq (fun i => if (i <= k)%N then lb A (start v) i else beta`_i) (size beta))
    (flatV ncv (fun c => if (c < k)%N then lq A (start v) (slot ncv k c)
                         else if c == (ncv - 1)%N then 0 else colv V c)).

Definition sizes_ok (deg ncv : nat) (q alpha beta V : seq F) : Prop :=
  [/\ size q = n, size V = (n * ncv)%N, (deg <= size alpha)%N & (deg < size beta)%N].

Definition reorth_idle A (v : 'cV[F]_n) (eps : F) (k ncv : nat) (orth : int) (V : seq F) : Prop :=
  orth <= 0 \/ [/\ 0 <= eps,
    (forall j i, (j < k)%N -> (i <= j)%N -> dt (lr A (start v) j) (lq A (start v) i) = 0) &
    orth <= 2 \/ forall c, (c < ncv)%N -> c = (ncv - 1)%N \/ colv V c = 0].

Lemma kernel_final A eps rtol deg (orth : int) ncv (q alpha beta V : seq F) k :
  (0 < ncv)%N -> ((deg <= 1) || (2 <= ncv))%N -> sizes_ok deg ncv q alpha beta V ->
  stop_at A (start (cvec n q)) (Num.sqrt n%:R * rtol) deg k ->
  reorth_idle A (cvec n q) eps k ncv orth V ->
  lanczos_recurrence eps A q deg%:Z rtol orth alpha beta V ncv = Some (kfinal A (cvec n q) k ncv alpha beta V).
Proof.
move=> ncv0 h [sq sV sa sb] hk ho.
pose st0 := ASt (cvec n q) (nth 0 alpha) (nth 0 beta) (colv V).
have := @kernel_conc F n A eps rtol deg orth ncv (size alpha) (size beta) st0 ncv0 h sa sb.
rewrite /= cvecK // !mkseq_nth flat_colv // => ->.
rewrite -unitvE in hk.
have P : kpost A ncv st0 k (akernel A eps rtol deg (onat orth) ncv st0).
  apply: akernel_run => //; case: ho => [o0|[e0 o1 o2]]; first by left; rewrite /onat ltNge o0.
  right; split=> //; first by rewrite unitvE.
  case: o2 => [o2|o2]; first by left; rewrite /onat; case: ifP => //; lia.
  by right=> c hc; rewrite /upd; case: eqP => // ne; case: (o2 c hc).
congr Some; rewrite /conc /kfinal -!unitvE (p_q P); congr KSt.
- by apply: mkseq_ext => i; rewrite (p_al P).
- by apply: mkseq_ext => i; rewrite (p_be P).
- apply: flatV_ext => c hc; case: ltnP => ck.
    have [h1 h2 h3] := slot_spec ncv0 hc ck.
    by rewrite -{1}h3 (p_V P).
  by rewrite (p_W P) ?ck // /upd; case: eqP.
Qed.
End Buf.
