(* Proofs about estimators and stopping criteria. *)
From mathcomp Require Import all_ssreflect all_algebra.
From mathcomp Require Import ring.
From Verif Require Import Base Spec ModelStats LemStats ModelEstimators.
Set Implicit Arguments.
Unset Strict Implicit.
Unset Printing Implicit Defensive.
Import Order.TTheory GRing.Theory Num.Theory.
Local Open Scope ring_scope.

Section Lem.
Variable F : rcfType.
Local Notation xn := (xnum F).

Implicit Types (X Y : seq (seq F)) (h : seq (arr F)).
(* ---- closed form of MeanEstimator states -------------------------------- *)
Arguments nvec_sub : simpl never.
Definition store_of (d : nat) (c : bool) (X : seq (seq F)) : store F :=
  if c then SCov (cov_of d X) else SMean (mean_of d X).

Definition vals_of (r : bool) (X : seq (seq F)) : option (seq (seq F)) :=
  if r then Some X else None.

Definition mest_of (d : nat) (c r : bool) (X : seq (seq F)) (dl : seq xn) : mest F :=
  MkMest (store_of d c X) (size X) dl (vals_of r X).

Definition delta_of (d : nat) (X Y : seq (seq F)) : seq xn :=
  mkseq (fun i => Fin (cavg Y i - cavg X i)) d.

Lemma mest_init_of d c r : mest_init F d c r = mest_of d c r [::] (nseq d PInf).
Proof. by rewrite /mest_init /mest_of /store_of cov_init_of mean_init_of; case: c; case: r. Qed.

Lemma mest_update_good d c r X dl x : good_batch d x ->
  mest_update (mest_of d c r X dl) x =
  (mest_of d c r (X ++ rows_of x) (delta_of d X (X ++ rows_of x)), None).
Proof.
move=> gx; rewrite /mest_update.
have [cc [Y e]] : exists cc, exists Y, as_rows x = (cc, Y) by case: (as_rows x) => a b; exists a, b.
have gx' : good_batch d (Arr2 cc Y) by move: gx; rewrite /good_batch /cols_of /rows_of e.
have -> : rows_of x = Y by rewrite /rows_of e.
rewrite e /= /store_of.
have dE a b : nvec_sub d (Vec (mkseq (cavg a) d)) (Vec (mkseq (cavg b) d)) = delta_of d b a.
  rewrite /nvec_sub /delta_of; apply/(@eq_from_nth _ NaN); rewrite ?size_mkseq // => i hi.
  by rewrite !nth_mkseq // !nth_mkseq.
case: c => /=.
  by rewrite cov_update_good //= /rows_of /= dE /mest_of size_cat; case: r.
by rewrite mean_update_good //= /rows_of /= dE /mest_of size_cat; case: r.
Qed.

(* delta after a history: change caused by the last batch, inf before any *)
Fixpoint last_delta (d : nat) (X : seq (seq F)) (dl : seq xn) (h : seq (arr F)) : seq xn :=
  match h with
  | [::] => dl
  | x :: h' => last_delta d (X ++ rows_of x) (delta_of d X (X ++ rows_of x)) h'
  end.

Lemma mest_hist_gen d c r h : all (good_batch d) h -> forall X dl,
  run_hist (@mest_update F) (mest_of d c r X dl) h =
  Some (mest_of d c r (X ++ all_rows h) (last_delta d X dl h)).
Proof.
elim: h => [|x h IH] /=; first by rewrite /all_rows /= => _ X dl; rewrite cats0.
by case/andP=> gx gh X dl; rewrite mest_update_good // IH // /all_rows /= catA.
Qed.

Lemma mest_hist d c r h : all (good_batch d) h ->
  run_hist (@mest_update F) (mest_init F d c r) h =
  Some (mest_of d c r (all_rows h) (last_delta d [::] (nseq d PInf) h)).
Proof. by move=> gh; rewrite mest_init_of mest_hist_gen. Qed.

Lemma last_delta_rcons d X dl h x :
  last_delta d X dl (rcons h x) =
  delta_of d (X ++ all_rows h) (X ++ all_rows (rcons h x)).
Proof.
elim: h X dl => [|y h IH] X dl /=; first by rewrite /all_rows /= cats0 cats0.
by rewrite IH /all_rows /= !catA.
Qed.

Lemma mest_ok_good d c r X dl h st :
  all (fun x : arr F => 0 < size (rows_of x))%N h ->
  run_hist (@mest_update F) (mest_of d c r X dl) h = Some st ->
  all (good_batch d) h.
Proof.
elim: h X dl => [//|x h IH] X dl /= /andP[hx hh].
case E: (good_batch d x).
  by rewrite mest_update_good // => /IH -> .
have [cc [Y e]] : exists cc, exists Y, as_rows x = (cc, Y) by case: (as_rows x) => a b; exists a, b.
move: E; rewrite /good_batch hx andbT /cols_of /mest_update e /= => hc.
by case: (c) => /=; rewrite /cov_update /mean_update /= hc.
Qed.

Lemma pyval_x_read d X : (0 < d)%N -> (0 < size X)%N ->
  pyval_x d (mean_call (mean_of d X)) = mkseq (fun i => Fin (cavg X i)) d.
Proof.
move=> d0 hX; rewrite /mean_call /= eqn0Ngt hX /=.
case: eqP => [-> | _] /=; first by [].
by rewrite -map_comp; apply: eq_mkseq.
Qed.

Lemma pyval_x_fresh d c r : pyval_x d (mest_estimate (mest_init F d c r)) = [:: NaN].
Proof. by rewrite /mest_estimate; case: c. Qed.

Arguments xmax : simpl never.
Arguments xmin : simpl never.
(* ---- extended-number bookkeeping ---------------------------------------- *)
Lemma xsum_fin (s : seq F) : xsum [seq Fin x | x <- s] = Fin (\sum_(x <- s) x).
Proof. by elim: s => [|x s IH] /=; rewrite ?big_nil ?big_cons // IH. Qed.

Lemma norm2_fin (s : seq F) :
  xsqrt (xsum [seq xmul x x | x <- [seq Fin x | x <- s]]) = Fin (Num.sqrt (\sum_(x <- s) x ^+ 2)).
Proof.
have -> : [seq xmul x x | x <- [seq Fin x | x <- s]] = [seq Fin x | x <- [seq x ^+ 2 | x <- s]].
  by rewrite -!map_comp; apply: eq_map => x /=; rewrite expr2.
rewrite xsum_fin big_map /= ltNge sumr_ge0 //= => x _; exact: sqr_ge0.
Qed.

Lemma norm1_fin (s : seq F) :
  xsum [seq xabs x | x <- [seq Fin x | x <- s]] = Fin (\sum_(x <- s) `|x|).
Proof.
have -> : [seq xabs x | x <- [seq Fin x | x <- s]] = [seq Fin x | x <- [seq `|x| | x <- s]].
  by rewrite -!map_comp.
by rewrite xsum_fin big_map.
Qed.

Lemma xmax_fin (x y : F) : xmax (Fin x) (Fin y) = Fin (Num.max x y).
Proof. by rewrite /xmax /= maxEle; case: ltgtP => // ->. Qed.

Lemma norminf_fin (x : F) (s : seq F) :
  foldr (@xmax F) (xabs (Fin x)) [seq xabs y | y <- [seq Fin y | y <- s]] =
  Fin (foldr Num.max `|x| [seq `|y| | y <- s]).
Proof. by elim: s => [|y s IH] //=; rewrite IH xmax_fin. Qed.

(* norms are never below a number <= 0 *)
Definition xge0 (a : xn) : bool := match a with Fin x => 0 <= x | PInf => true | _ => false end.
Definition xge0nan (a : xn) : bool := match a with NaN => true | _ => xge0 a end.

Lemma xge0nan_add a b : xge0nan a -> xge0nan b -> xge0nan (xadd a b).
Proof. by case: a => [x||| ]; case: b => [y|||] //=; exact: addr_ge0. Qed.

Lemma xge0nan_sqr a : xge0nan (xmul a a).
Proof. by case: a => [x|||] //=; rewrite -expr2 sqr_ge0. Qed.

Lemma xge0nan_abs (a : xn) : xge0nan (xabs a).
Proof. by case: a => [x|||] //=. Qed.

Lemma xge0nan_max a b : xge0nan a -> xge0nan b -> xge0nan (xmax a b).
Proof. by rewrite /xmax; case: a => [x|||]; case: b => [y|||] //= *; case: ifP. Qed.

Lemma xge0nan_min a b : xge0nan a -> xge0nan b -> xge0nan (xmin a b).
Proof. by rewrite /xmin; case: a => [x|||]; case: b => [y|||] //= *; case: ifP. Qed.

Lemma xge0nan_sum (l : seq xn) : all xge0nan l -> xge0nan (xsum l).
Proof.
by elim: l => [|x l IH] /= => [_|/andP[h1 h2]]; rewrite ?lexx // xge0nan_add // IH.
Qed.

Lemma xge0nan_sqrt a : xge0nan a -> xge0nan (xsqrt a).
Proof. by case: a => [x|||] //=; case: ifP => //= *; exact: sqrtr_ge0. Qed.

Lemma all_map_ge0 (f : xn -> xn) l : (forall a, xge0nan (f a)) -> all xge0nan (map f l).
Proof. by move=> h; elim: l => //= a l ->; rewrite h. Qed.

Lemma norm1d_ge0 o l v : norm1d o l = Ok v -> xge0nan v.
Proof.
case: o => /=.
- by case=> <-; apply: xge0nan_sqrt; apply: xge0nan_sum; apply: all_map_ge0 => a; exact: xge0nan_sqr.
- by case=> <-; apply: xge0nan_sum; apply: all_map_ge0 => a; exact: xge0nan_abs.
- by case=> <-; apply: xge0nan_sqrt; apply: xge0nan_sum; apply: all_map_ge0 => a; exact: xge0nan_sqr.
- case: l => // a l [<-]; elim: l => [|b l IH] /=; first exact: xge0nan_abs.
  by apply: xge0nan_max => //; exact: xge0nan_abs.
- case: l => // a l [<-]; elim: l => [|b l IH] /=; first exact: xge0nan_abs.
  by apply: xge0nan_min => //; exact: xge0nan_abs.
- by case=> <- /=; rewrite ler0n.
- by [].
Qed.

Lemma norm_d_ge0 o d v : norm_d o d = Ok v -> xge0nan v.
Proof.
case: d => [x|l] /=; last exact: norm1d_ge0.
by case: o => // -[<-]; exact: xge0nan_abs.
Qed.

Lemma xlt_ge0_zero a : xge0nan a -> xlt a (Fin 0) = false.
Proof. by case: a => [x|||] //= h; rewrite ltNge h. Qed.

Lemma xlt_zero_mul a b : xge0nan a -> xlt a (xmul (Fin 0) b) = false.
Proof.
move=> ha; case: b => [y|||] /=.
- by rewrite mul0r xlt_ge0_zero.
- by rewrite /xinf_of_sign eqxx; case: a ha.
- by rewrite /xinf_of_sign oppr0 eqxx; case: a ha.
- by case: a ha.
Qed.

Lemma tol_zero_false o (e : eview F) : tol_call (Fin 0) (Fin 0) o e <> Ok true.
Proof.
rewrite /tol_call; case: (ev_estimate e) => //= est.
case E: (norm_d o (ev_delta e)) => [err|//] /=.
have h := norm_d_ge0 E; rewrite xlt_ge0_zero //.
by case: (norm1d o est) => //= v; rewrite xlt_zero_mul.
Qed.

(* infinite error never passes *)
Lemma xlt_pinf b : xlt (PInf : xn) b = false.
Proof. by case: b. Qed.

Lemma xdot_fin (a b : seq F) (k : nat) : size a = k -> size b = k ->
  xdot [seq Fin x | x <- a] [seq Fin x | x <- b] = Fin (\sum_(i < k) a`_i * b`_i).
Proof.
rewrite /xdot; elim: k a b => [|k IH] [|x a] [|y b] //=; first by rewrite big_ord0.
by move=> [ha] [hb]; rewrite IH // big_ord_recl.
Qed.

End Lem.
