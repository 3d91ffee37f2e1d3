(* Auxiliary lemmas about the QL iteration: one rotation, one sweep, the whole
   run, as identities between bilinear forms. *)
From mathcomp Require Import all_ssreflect all_algebra zify ring.
From Verif Require Import Base ModelTqli SpecLanczos.
Set Implicit Arguments.
Unset Strict Implicit.
Unset Printing Implicit Defensive.
Import Order.TTheory GRing.Theory Num.Theory.
Local Open Scope ring_scope.

Section Algebra.
Variable F : rcfType.

Lemma sum_loc n (s : seq nat) (f g : nat -> F) : uniq s -> all (fun k => k < n)%N s ->
  (forall k, (k < n)%N -> k \notin s -> f k = g k) ->
  \sum_(k < n) f k = \sum_(k < n) g k + \sum_(k <- s) (f k - g k).
Proof.
move=> us hs e; rewrite -!(big_mkord xpredT f) -!(big_mkord xpredT g) /=.
have -> : \sum_(k <- s) (f k - g k) = \sum_(0 <= k < n) (if k \in s then f k - g k else 0).
  rewrite -big_mkcond -(big_filter _ (mem s)); apply: perm_big.
  apply: uniq_perm; rewrite ?filter_uniq ?iota_uniq // => k; rewrite mem_filter mem_index_iota /= .
  by case: (boolP (k \in s)) => //= /(allP hs).
rewrite -big_split; apply: eq_big_nat => k hk /=.
by case: ifPn => h; [rewrite addrC subrK|rewrite addr0 e].
Qed.

(* the rotated row *)
Definition rotu (i : nat) (s c : F) (u : nat -> F) : nat -> F :=
  fun k => if k == i then c * u i - s * u i.+1 else if k == i.+1 then s * u i + c * u i.+1 else u k.
Definition upd (f : nat -> F) (i : nat) (x : F) : nat -> F := fun k => if k == i then x else f k.
Definition sym (u v : nat -> F) (k : nat) : F := u k * v k.+1 + u k.+1 * v k.

Definition bil n (d e u v : nat -> F) : F := \sum_(k < n) d k * (u k * v k) + \sum_(k < n) e k * sym u v k.

(* the form during a sweep: j was the last index rotated *)
Definition dpend (j : nat) (p : F) (d : nat -> F) : nat -> F := fun k => if k == j then d j - p else d k.
Definition epend (m j : nat) (c g : F) (e : nat -> F) : nat -> F :=
  fun k => if k == m then 0 else if k == j then g else if k.+1 == j then c * e k else e k.
Definition bulge (m j : nat) (s : F) (e u v : nat -> F) : F :=
  if (0 < j < m)%N then s * e j.-1 * (u j.-1 * v j.+1 + u j.+1 * v j.-1) else 0.
Definition pend n m j s c p g (d e u v : nat -> F) : F :=
  bil n (dpend j p d) (epend m j c g e) u v + bulge m j s e u v.

Lemma rot2 (s c b g di x y z w : F) : s ^+ 2 = 1 - c ^+ 2 ->
  let r' := (di - g) * s + 2%:R * c * b in let p := s * r' in
  (di - p) * ((c * x - s * y) * (c * z - s * w)) + (g + p) * ((s * x + c * y) * (s * z + c * w))
  + (c * r' - b) * ((c * x - s * y) * (s * z + c * w) + (s * x + c * y) * (c * z - s * w)) =
  di * (x * z) + g * (y * w) + b * (x * w + y * z).
Proof. by move=> h /=; ring: h. Qed.

Lemma rot_step n m i s0 c0 p0 g0 r s c (d e u v : nat -> F) :
  (i < m < n)%N -> s * r = s0 * e i -> c * r = g0 -> s ^+ 2 + c ^+ 2 = 1 -> u n = 0 -> v n = 0 ->
  let b := c0 * e i in let g := d i.+1 - p0 in let r' := (d i - g) * s + 2%:R * c * b in let p := s * r' in
  pend n m i.+1 s0 c0 p0 g0 d e u v =
  pend n m i s c p (c * r' - b) (upd d i.+1 (g + p)) (upd e i.+1 r) (rotu i s c u) (rotu i s c v).
Proof.
move=> /andP[im mn] hs hc h1 un vn b g r' p.
have K : forall a b : F, a - b = 0 -> a = b by move=> ? ? /eqP; rewrite subr_eq0 => /eqP.
rewrite /pend /bil.
rewrite (@sum_loc n [:: i; i.+1] (fun k => dpend i.+1 p0 d k * (u k * v k))
  (fun k => dpend i p (upd d i.+1 (g + p)) k * (rotu i s c u k * rotu i s c v k))); first last.
- move=> k kn; rewrite !inE negb_or => /andP[/negPf k1 /negPf k2].
  by rewrite /dpend /upd /rotu k1 k2.
- by rewrite /= !andbT; lia.
- by rewrite /= andbT inE; lia.
have S2 : \sum_(k < n) epend m i.+1 c0 g0 e k * sym u v k =
  \sum_(k < n) epend m i c (c * r' - b) (upd e i.+1 r) k * sym (rotu i s c u) (rotu i s c v) k +
  \sum_(k <- (if (0 < i)%N then [:: i.-1; i; i.+1] else [:: i; i.+1]))
   (epend m i.+1 c0 g0 e k * sym u v k - epend m i c (c * r' - b) (upd e i.+1 r) k * sym (rotu i s c u) (rotu i s c v) k).
  apply: sum_loc; first by case: ifP; rewrite /= !inE; lia.
    by case: ifP; rewrite /=; lia.
  move=> k kn hk.
  have [k1 k2 k3] : [/\ (k == i) = false, (k == i.+1) = false & (k.+1 == i) = false].
    by case: ifP hk => i0; rewrite !inE !negb_or => hk; split; lia.
  by rewrite /epend /upd /sym /rotu k1 k2 k3 eqSS k1.
rewrite {}S2 !big_cons !big_nil !addr0.
have ii1 : (i == i.+1) = false by lia.
have i1i : (i.+1 == i) = false by lia.
have i2i : (i.+2 == i) = false by lia.
have i2i1 : (i.+2 == i.+1) = false by lia.
have imF : (i == m) = false by lia.
have h1' : s ^+ 2 = 1 - c ^+ 2 by rewrite -h1 addrK.
(* the 2 x 2 block *)
have D : dpend i.+1 p0 d i * (u i * v i) - dpend i p (upd d i.+1 (g + p)) i * (rotu i s c u i * rotu i s c v i)
   + (dpend i.+1 p0 d i.+1 * (u i.+1 * v i.+1)
     - dpend i p (upd d i.+1 (g + p)) i.+1 * (rotu i s c u i.+1 * rotu i s c v i.+1))
   + (epend m i.+1 c0 g0 e i * sym u v i - epend m i c (c * r' - b) (upd e i.+1 r) i * sym (rotu i s c u) (rotu i s c v) i) = 0.
  have := @rot2 s c b g (d i) (u i) (u i.+1) (v i) (v i.+1) h1'.
  rewrite /dpend /upd /epend /sym /rotu !eqxx ii1 i1i imF -/b -/g /= -/r' -/p => E.
  transitivity (d i * (u i * v i) + g * (u i.+1 * v i.+1) + b * (u i * v i.+1 + u i.+1 * v i) -
    ((d i - p) * ((c * u i - s * u i.+1) * (c * v i - s * v i.+1)) +
    (g + p) * ((s * u i + c * u i.+1) * (s * v i + c * v i.+1)) +
    (c * r' - b) *
    ((c * u i - s * u i.+1) * (s * v i + c * v i.+1) +
     (s * u i + c * u i.+1) * (c * v i - s * v i.+1)))); last by rewrite E subrr.
  clear; clearbody p r' g b; move: (d i) (u i) (v i) (u i.+1) (v i.+1) => *; ring.
(* the coupling with i + 2 *)
have U : epend m i.+1 c0 g0 e i.+1 * sym u v i.+1 - epend m i c (c * r' - b) (upd e i.+1 r) i.+1 * sym (rotu i s c u) (rotu i s c v) i.+1
   + bulge m i.+1 s0 e u v = 0.
  rewrite /epend /bulge /upd /sym /rotu !eqxx i1i i2i i2i1 /=.
  case: eqP => [<-|/eqP nm]; first by rewrite ltnn !mul0r subrr addr0.
  have -> : (i.+1 < m)%N by lia.
  rewrite -hs -hc; move: (u i) (u i.+1) (v i) (v i.+1) (u i.+2) (v i.+2) => *; ring.
(* the coupling with i - 1 *)
have L : \sum_(k <- if (0 < i)%N then [:: i.-1] else [::])
   (epend m i.+1 c0 g0 e k * sym u v k - epend m i c (c * r' - b) (upd e i.+1 r) k * sym (rotu i s c u) (rotu i s c v) k)
   - bulge m i s (upd e i.+1 r) (rotu i s c u) (rotu i s c v) = 0.
  rewrite /bulge im andbT; case: ifP => i0; last by rewrite big_nil subr0.
  rewrite big_seq1 /epend /upd /sym /rotu prednK //.
  have -> : (i.-1 == m) = false by lia.
  have -> : (i.-1 == i.+1) = false by lia.
  have -> : (i.-1 == i) = false by lia.
  have -> : (i == i.+1) = false by lia.
  rewrite !eqxx i1i.
  move: (u i) (u i.+1) (v i) (v i.+1) (u i.-1) (v i.-1) (e i.-1) => u0 u1 v0 v1 u2 v2 e2; ring: h1'.
apply: K.
have -> : \sum_(k <- (if (0 < i)%N then [:: i.-1; i; i.+1] else [:: i; i.+1]))
   (epend m i.+1 c0 g0 e k * sym u v k - epend m i c (c * r' - b) (upd e i.+1 r) k * sym (rotu i s c u) (rotu i s c v) k) =
  \sum_(k <- if (0 < i)%N then [:: i.-1] else [::])
   (epend m i.+1 c0 g0 e k * sym u v k - epend m i c (c * r' - b) (upd e i.+1 r) k * sym (rotu i s c u) (rotu i s c v) k)
  + (epend m i.+1 c0 g0 e i * sym u v i - epend m i c (c * r' - b) (upd e i.+1 r) i * sym (rotu i s c u) (rotu i s c v) i
  + (epend m i.+1 c0 g0 e i.+1 * sym u v i.+1 - epend m i c (c * r' - b) (upd e i.+1 r) i.+1 * sym (rotu i s c u) (rotu i s c v) i.+1)).
  by case: ifP => _; rewrite !big_cons !big_nil ?addr0 ?add0r.
move: D U L.
move: (\sum_(k < n) _) (\sum_(k < n) _) => S1 S2.
move: (\sum_(k <- _) _) (bulge m i _ _ _ _) (bulge m i.+1 _ _ _ _) => S3 B1 B2.
move: (dpend i.+1 p0 d i * _ - _) (dpend i.+1 p0 d i.+1 * _ - _) (epend m i.+1 c0 g0 e i * _ - _)
  (epend m i.+1 c0 g0 e i.+1 * _ - _) => x1 x2 x3 x4 D U L.
have -> : x3 = - (x1 + x2) by move/eqP: D; rewrite addrC addr_eq0 => /eqP.
have -> : x4 = - B2 by move/eqP: U; rewrite addr_eq0 => /eqP.
have -> : S3 = B1 by move/eqP: L; rewrite subr_eq0 => /eqP.
ring.
Qed.
End Algebra.

Section Run.
Variable F : rcfType.
Implicit Types d e u v : seq F.

Lemma add_eq0 (x dd : F) : (`|x| + dd == dd) = (x == 0).
Proof. by rewrite -subr_eq0 addrK normr_eq0. Qed.

Lemma splitP d e k it : let m := split d e k it in
  [/\ (it <= m <= it + k)%N, forall j, (it <= j < m)%N -> e`_j != 0 & (m < it + k)%N -> e`_m = 0].
Proof.
elim: k it => [|k IH] it /=; first by split=> // *; lia.
rewrite add_eq0; case: eqP => [e0|/eqP e0]; first by split=> // *; lia.
have [h1 h2 h3] := IH it.+1; split; first by lia.
- move=> j hj; have [->//|/eqP nj] := j =P it; apply: h2; lia.
- by move=> h; apply: h3; lia.
Qed.

Lemma hypot_sq (a b : F) : hypot a b ^+ 2 = a ^+ 2 + b ^+ 2.
Proof. by rewrite /hypot sqr_sqrtr // addr_ge0 ?sqr_ge0. Qed.
Lemma hypot_neq0 (a b : F) : a != 0 -> hypot a b != 0.
Proof.
move=> a0; rewrite -sqrf_eq0 hypot_sq paddr_eq0 ?sqr_ge0 // sqrf_eq0 (negPf a0) //.
Qed.
Lemma hypot_ge0 (a b : F) : 0 <= hypot a b. Proof. exact: sqrtr_ge0. Qed.

Lemma size_set (s : seq F) i x : (i < size s)%N -> size (set_nth 0 s i x) = size s.
Proof. by move=> h; rewrite size_set_nth; apply/maxn_idPr. Qed.

Lemma rot_rowE i (s c : F) u k : (rot_row i s c u)`_k = rotu i s c (nth 0 u) k.
Proof.
rewrite /rot_row /rotu !nth_set_nth /= !nth_set_nth /=.
have -> : (i == i.+1) = false by lia.
by [].
Qed.
Lemma size_rot_row i (s c : F) u : (i.+1 < size u)%N -> size (rot_row i s c u) = size u.
Proof. by move=> h; rewrite /rot_row !size_set_nth; lia. Qed.

Definition dot n u v : F := \sum_(k < n) u`_k * v`_k.
Definition bilL n d e u v : F := bil n (nth 0 d) (nth 0 e) (nth 0 u) (nth 0 v).

Lemma bil_ext n (d e u v d' e' u' v' : nat -> F) :
  (forall k, (k < n)%N -> d k = d' k) -> (forall k, (k < n)%N -> e k = e' k) ->
  (forall k, (k <= n)%N -> u k = u' k) -> (forall k, (k <= n)%N -> v k = v' k) ->
  bil n d e u v = bil n d' e' u' v'.
Proof.
move=> hd he hu hv; congr (_ + _); apply: eq_bigr => k _; rewrite /sym ?hd ?he ?hu ?hv //; exact: ltnW.
Qed.

Lemma dot_rot n i (s c : F) u v : (i.+1 < n)%N -> s ^+ 2 + c ^+ 2 = 1 ->
  dot n (rot_row i s c u) (rot_row i s c v) = dot n u v.
Proof.
move=> hn h1; rewrite /dot.
rewrite (@sum_loc F n [:: i; i.+1] (fun k => (rot_row i s c u)`_k * (rot_row i s c v)`_k) (fun k => u`_k * v`_k)).
- rewrite !big_cons big_nil addr0 !rot_rowE /rotu !eqxx.
  have -> : (i.+1 == i) = false by lia.
  rewrite -[RHS]addr0; congr (_ + _).
  have h1' : s ^+ 2 = 1 - c ^+ 2 by rewrite -h1 addrK.
  by move: (u`_i) (u`_i.+1) (v`_i) (v`_i.+1) => x y z w; ring: h1'.
- by rewrite /= andbT inE; lia.
- by rewrite /= !andbT; lia.
- by move=> k _; rewrite !inE negb_or !rot_rowE /rotu => /andP[/negPf-> /negPf->].
Qed.

Definition pendL n m j (w : sweep F) d e u v : F :=
  pend n m j (w_s w) (w_c w) (w_p w) (w_g w) (nth 0 d) (nth 0 e) (nth 0 u) (nth 0 v).

Lemma rotations_inv n it m k w d e Z w' d' e' Z' :
  (it + k <= m < n)%N -> size d = n -> size e = n -> w_s w != 0 ->
  (forall i, (it <= i < it + k)%N -> e`_i != 0) ->
  rotations it m k w d e Z = (w', d', e', Z') ->
  [/\ size d' = n, size e' = n, w_s w' != 0,
   (forall j, (j <= it)%N || (m < j)%N -> e'`_j = e`_j) &
   exists rho, [/\ Z' = map rho Z, forall u, size u = n -> size (rho u) = n,
     forall u v, size u = n -> size v = n -> dot n (rho u) (rho v) = dot n u v &
     forall u v, size u = n -> size v = n ->
       pendL n m (it + k) w d e u v = pendL n m it w' d' e' (rho u) (rho v)]].
Proof.
move=> hm sd se; elim: k hm w d e sd se Z => [|k IH] hm w d e sd se Z s0 en /=.
  case=> <- <- <- <-; split=> //; exists id; split=> //; first by rewrite map_id.
  by move=> u v _ _; rewrite addn0.
set i := (it + k)%N; set f := w_s w * _; set b := w_c w * _; set r := hypot f _.
have f0 : f != 0 by rewrite mulf_neq0 // en //; rewrite /i; lia.
have r0 : r != 0 by exact: hypot_neq0.
rewrite (negPf r0); set s := f / r; set c := w_g w / r; set g := d`_i.+1 - _.
set r' := _ + _; set p := s * r'; set d1 := set_nth _ _ _ _; set e1 := set_nth _ _ _ _ => E.
have sd1 : size d1 = n by rewrite size_set ?sd // /i; lia.
have se1 : size e1 = n by rewrite size_set ?se // /i; lia.
have e1n j : (it <= j < it + k)%N -> e1`_j != 0.
  move=> hj; rewrite nth_set_nth /=; have -> : (j == i.+1) = false by rewrite /i; lia.
  by apply: en; lia.
have [||h1 h2 h3 h4 [rho [h5 h6 h7 h8]]] := IH _ (Sweep s c p (c * r' - b) r') d1 e1 sd1 se1 _ _ e1n E => //.
- lia.
- by rewrite /= mulf_neq0 // invr_neq0.
have sc : s ^+ 2 + c ^+ 2 = 1.
  rewrite !expr_div_n -mulrDl -hypot_sq -/r divff // sqrf_eq0 //.
split=> //.
- move=> j hj; rewrite h4 // nth_set_nth /=; have -> // : (j == i.+1) = false by rewrite /i; lia.
have szr u : size u = n -> size (rot_row i s c u) = n by move=> su; rewrite size_rot_row ?su // /i; lia.
exists (rho \o rot_row i s c); split.
- by rewrite map_comp.
- by move=> u su; apply/h6/szr.
- by move=> u v su sv; rewrite /= h7 ?szr // dot_rot // /i; lia.
- move=> u v su sv; rewrite /= -h8 ?szr // /pendL /= addnS -/i.
  rewrite (@rot_step F n m i _ _ _ _ r s c).
  + rewrite /= -/b -/g -/r' -/p /pend; congr (_ + _).
    * by apply: bil_ext => j _; rewrite ?rot_rowE //= /dpend /epend /upd !nth_set_nth.
    * by rewrite /bulge !rot_rowE nth_set_nth.
  + by rewrite /i; lia.
  + by rewrite /s divfK.
  + by rewrite /c divfK.
  + by [].
  + by rewrite nth_default ?su.
  + by rewrite nth_default ?sv.
Qed.

(* a completed sweep *)
Lemma sweep_inv n it m g r d e Z w' d' e' Z' :
  (it < m < n)%N -> size d = n -> size e = n -> e`_m = 0 -> ((0 < it)%N -> e`_it.-1 = 0) ->
  (forall i, (it <= i < m)%N -> e`_i != 0) ->
  rotations it m (m - it) (Sweep 1 1 0 g r) d e Z = (w', d', e', Z') ->
  let d'' := set_nth 0 d' it (d'`_it - w_p w') in
  let e'' := set_nth 0 (set_nth 0 e' it (w_g w')) m 0 in
  [/\ size d'' = n, size e'' = n,
   (forall j, (j < it)%N || (m <= j)%N -> e''`_j = e`_j) &
   exists rho, [/\ Z' = map rho Z, forall u, size u = n -> size (rho u) = n,
     forall u v, size u = n -> size v = n -> dot n (rho u) (rho v) = dot n u v &
     forall u v, size u = n -> size v = n -> bilL n d e u v = bilL n d'' e'' (rho u) (rho v)]].
Proof.
move=> hm sd se em ei en E.
have [|||sd' se' s0 he [rho [h1 h2 h3 h4]]] := @rotations_inv n it m (m - it) _ d e Z w' d' e' Z' _ sd se _ _ E.
- lia.
- exact: oner_neq0.
- by move=> i hi; apply: en; lia.
move=> d'' e''.
have e''E j : e''`_j = if j == m then 0 else if j == it then w_g w' else e'`_j by rewrite !nth_set_nth /= nth_set_nth.
split; first by rewrite size_set ?sd' //; lia.
- by rewrite !size_set ?se' //; lia.
- move=> j hj; rewrite e''E; case: eqP => [->//|/eqP jm].
  have -> : (j == it) = false by lia.
  by apply: he; lia.
exists rho; split=> // u v su sv.
have := h4 u v su sv; rewrite subnKC; last by lia.
have e0 j : j.+1 == it -> e'`_j = 0.
  move=> /eqP ji; rewrite he; last by rewrite -ji leqnSn.
  by have := ei; rewrite -ji /= => ->.
rewrite /pendL /pend /bulge ltnn andbF addr0 /bilL => E2.
transitivity (bil n (dpend m 0 (nth 0 d)) (epend m m 1 g (nth 0 e)) (nth 0 u) (nth 0 v)).
  apply: bil_ext => // k _; rewrite /dpend /epend.
    by case: eqP => [->|//]; rewrite subr0.
  by case: eqP => [->//|_]; case: eqP => _ //; rewrite mul1r.
rewrite {}E2 -[RHS]addr0; congr (_ + _); last first.
  by case: ifP => // h; rewrite e0 ?mulr0 ?mul0r //; lia.
apply: bil_ext => // k _; rewrite ?e''E /dpend /epend /d'' ?nth_set_nth //=.
case: eqP => // _; case: eqP => // _; case: ifP => // h; by rewrite e0 // mulr0.
Qed.

(* orthogonal similarity between the tridiagonal matrices stored in two states *)
Definition simi n d e d' e' (rho : seq F -> seq F) : Prop :=
  [/\ forall u, size u = n -> size (rho u) = n,
     forall u v, size u = n -> size v = n -> dot n (rho u) (rho v) = dot n u v &
     forall u v, size u = n -> size v = n -> bilL n d e u v = bilL n d' e' (rho u) (rho v)].

Lemma simi_id n d e : simi n d e d e id. Proof. by []. Qed.
Lemma simi_trans n d e d' e' d'' e'' r1 r2 : simi n d e d' e' r1 -> simi n d' e' d'' e'' r2 -> simi n d e d'' e'' (r2 \o r1).
Proof.
move=> [a1 b1 c1] [a2 b2 c2]; split=> /=.
- by move=> u su; apply/a2/a1.
- by move=> u v su sv; rewrite b2 ?a1 // b1.
- by move=> u v su sv; rewrite c1 // c2 ?a1.
Qed.

Lemma ql_flags fuel n it mi ii (x x' : tqst F) : ql fuel n it mi ii x = TOk x' ->
  (x_aband x -> x_aband x') /\ (x_capped x -> x_capped x').
Proof.
elim: fuel ii x => [//|fuel IH] ii [d e Z ab cp] /=.
case: ifP => _; last by case=> <-.
case: ifP => _; first by case=> <-.
case: ifP => // _; case: (rotations _ _ _ _ _ _ _) => [[[w d1] e1] Z1].
by case: ifP => _ /IH [/= h1 h2]; split=> // _; apply: h1.
Qed.

Lemma ql_inv fuel n it mi ii (x x' : tqst F) : (it < n)%N ->
  size (x_d x) = n -> size (x_e x) = n -> (x_e x)`_n.-1 = 0 -> ((0 < it)%N -> (x_e x)`_it.-1 = 0) ->
  ql fuel n it mi ii x = TOk x' -> ~~ x_aband x' ->
  [/\ size (x_d x') = n, size (x_e x') = n, (x_e x')`_n.-1 = 0,
     forall j, (j < it)%N -> (x_e x')`_j = (x_e x)`_j &
     (~~ x_capped x' -> (x_e x')`_it = 0) /\
     exists rho, x_Z x' = map rho (x_Z x) /\ simi n (x_d x) (x_e x) (x_d x') (x_e x') rho].
Proof.
move=> hit; elim: fuel ii x => [//|fuel IH] ii [d e Z ab cp] /= sd se en ei.
have [] := @splitP d e (n.-1 - it) it; set m := split _ _ _ _ => m1 m2 m3.
have em : e`_m = 0.
  by have [->//|/eqP h] := m =P n.-1; apply: m3; lia.
case: eqP => [mi'|/eqP mi'] /=.
  case=> <- /= _; split=> //; split; first by rewrite -mi'.
  by exists id; rewrite map_id; split.
case: ifP => _.
  by case=> <- /= _; split=> //; split=> //; exists id; rewrite map_id; split.
case: ifP => // _.
set g := _ + _ / _; set r := hypot _ _.
case E: (rotations _ _ _ _ _ _ _) => [[[w d1] e1] Z1].
case: ifP => [_ /ql_flags [/= h _] /negP|_ Eq ab']; first by move=> h'; case: h'; apply: h.
have hm : (it < m < n)%N by lia.
have [h1 h2 h3 [rho [h4 h5 h6 h7]]] := @sweep_inv n it m g r d e Z w d1 e1 Z1 hm sd se em ei m2 E.
have [||||g1 g2 g3 g4 [g5 [rho' [g6 g7]]]] := IH _ _ _ _ _ _ Eq ab' => //=.
- by rewrite h3 //; lia.
- by move=> i0; rewrite h3 ?ei //; lia.
split=> //; first by move=> j hj; rewrite g4 //= h3 // hj.
split=> //; exists (rho' \o rho); split; first by rewrite g6 /= h4 map_comp.
by apply: simi_trans g7; split.
Qed.

Lemma ql_all_inv fuel n mi k it (x x' : tqst F) : (it + k = n)%N ->
  size (x_d x) = n -> size (x_e x) = n -> (x_e x)`_n.-1 = 0 -> (forall j, (j < it)%N -> (x_e x)`_j = 0) ->
  ql_all fuel n mi k it x = TOk x' -> ~~ x_aband x' -> ~~ x_capped x' ->
  [/\ size (x_d x') = n, size (x_e x') = n, forall j, (x_e x')`_j = 0 &
     exists rho, x_Z x' = map rho (x_Z x) /\ simi n (x_d x) (x_e x) (x_d x') (x_e x') rho].
Proof.
elim: k it x => [|k IH] it x hn sd se en e0 /=.
  case=> <- _ _; split=> //; last by exists id; rewrite map_id; split.
  by move=> j; case: (ltnP j it) => [/e0//|h]; rewrite nth_default // se; lia.
case Eq: (ql _ _ _ _ _ _) => [||y] // Ea ab cp.
have [aby cpy] : ~~ x_aband y /\ ~~ x_capped y.
  clear IH Eq; move: Ea; elim: k it y {hn e0} => [|k IH] it y /=; first by case=> ->.
  case Eq: (ql _ _ _ _ _ _) => [||z] // /IH [h1 h2]; have [g1 g2] := ql_flags Eq.
  by split; [apply: contra h1|apply: contra h2].
have itn : (it < n)%N by lia.
have [|h1 h2 h3 h4 [h5 [rho [h6 h7]]]] := ql_inv itn sd se en _ Eq aby.
  by move=> i0; apply: e0; lia.
have [||g1 g2 g3 [rho' [g4 g5]]] := IH it.+1 y _ h1 h2 h3 _ Ea ab cp.
- by lia.
- by move=> j hj; have [->|/eqP nj] := j =P it; [apply: h5|rewrite h4 ?e0 //; lia].
split=> //; exists (rho' \o rho); split; first by rewrite g4 h6 map_comp.
exact: simi_trans g5.
Qed.

(* termination *)
Lemma ql_fuel fuel n it mi ii (x : tqst F) : (mi + 1 < fuel%:Z + ii%:Z)%R -> (0 < fuel)%N -> ql fuel n it mi ii x <> TFuel F.
Proof.
elim: fuel ii x => [//|fuel IH] ii [d e Z ab cp] /= h _.
case: ifP => _ //; case: ifP => // /negbT; rewrite negb_or => /andP[h1 _]; case: ifP => // _.
case: (rotations _ _ _ _ _ _ _) => [[[w d1] e1] Z1].
by case: ifP => _; apply: IH; lia.
Qed.

Lemma ql_more fuel f2 n it mi ii (x : tqst F) : ql fuel n it mi ii x <> TFuel F -> (fuel <= f2)%N ->
  ql f2 n it mi ii x = ql fuel n it mi ii x.
Proof.
elim: fuel f2 ii x => [//|fuel IH] [//|f2] ii [d e Z ab cp] /= h hf.
case: ifP h => _ //; case: ifP => // _; case: ifP => // _.
case: (rotations _ _ _ _ _ _ _) => [[[w d1] e1] Z1].
by case: ifP => _ h; apply: IH.
Qed.
End Run.
