(* The estimators of /repo/src/primate on samples that may be infinite or NaN:
   the arithmetic of ModelStats and ModelEstimators with numpy's rules for
   non-finite doubles (Base.xnum; exact otherwise, no overflow). *)
From mathcomp Require Import all_ssreflect all_algebra.
From Verif Require Import Base ModelStats ModelEstimators ModelTrace.
Set Implicit Arguments.
Unset Strict Implicit.
Unset Printing Implicit Defensive.
Import Order.TTheory GRing.Theory Num.Theory.
Local Open Scope ring_scope.

Section NonFinite.
Variable F : rcfType.
Local Notation xn := (xnum F).

Definition xat (s : seq xn) (i : nat) : xn := nth (Fin 0) s i.

(* ---- classes Mean and Covariance, stats.py 7-88 -------------------------------- *)
(* the attributes; S is absent in a Mean *)
Record xacc : Type := XAcc { xa_dim : nat; xa_n : nat; xa_mu : seq xn; xa_S : option (seq (seq xn)) }.

(* stats.py 8-11, 47-49 *)
Definition xacc_init (dim : nat) (covariance : bool) : xacc :=
  XAcc dim 0 (nseq dim (Fin 0)) (if covariance then Some (nseq dim (nseq dim (Fin 0))) else None).

(* X.mean(axis=0), column i, stats.py 34, 77: 0/0 for a batch without rows *)
Definition xbatch_mean (X : seq (seq xn)) (i : nat) : xn :=
  xdiv (xsum [seq xat x i | x <- X]) (Fin (size X)%:R).

(* batch_mean - self.mu, stats.py 35, 78 *)
Definition xdelta_mean (mu : seq xn) (X : seq (seq xn)) (i : nat) : xn := xsub (xbatch_mean X i) (xat mu i).

(* self.mu += (X.shape[0] / new_n) * delta_mean, stats.py 37, 80 *)
Definition xmu_step (dim n : nat) (mu : seq xn) (X : seq (seq xn)) : seq xn :=
  mkseq (fun i => xadd (xat mu i) (xmul (Fin ((size X)%:R / (n + size X)%:R)) (xdelta_mean mu X i))) dim.

(* self.S += X_centered.T @ X_centered + (self.n * X.shape[0] / new_n) * X_shift, stats.py 83-85 *)
Definition xS_step (dim n : nat) (mu : seq xn) (S : seq (seq xn)) (X : seq (seq xn)) : seq (seq xn) :=
  mkseq (fun i => mkseq (fun j =>
    xadd (xat (nth [::] S i) j)
      (xadd (xsum [seq xmul (xsub (xat x i) (xbatch_mean X i)) (xsub (xat x j) (xbatch_mean X j)) | x <- X])
            (xmul (Fin ((n * size X)%:R / (n + size X)%:R)) (xmul (xdelta_mean mu X i) (xdelta_mean mu X j))))) dim) dim.

(* stats.py 23-38 and 66-86 *)
Definition xacc_update (a : xacc) (x : arr xn) : effect xacc :=
  let: (cols, X) := as_rows x in
  if cols != xa_dim a then (a, Some AssertionError)
  else
    let new_n := (xa_n a + size X)%N in
    if new_n == 0%N then (a, Some ZeroDivisionError)
    else (XAcc (xa_dim a) new_n (xmu_step (xa_dim a) (xa_n a) (xa_mu a) X)
            (omap (fun S => xS_step (xa_dim a) (xa_n a) (xa_mu a) S X) (xa_S a)), None).

(* Covariance.__call__(), stats.py 59-64, for dim = 1 *)
Definition xvar (a : xacc) (S : seq (seq xn)) : xn :=
  if (xa_n a <= 1)%N then PInf else xdiv (xat (nth [::] S 0) 0) (Fin ((xa_n a)%:R - 1)).

(* ---- class MeanEstimator, estimators.py 102-145 ---------------------------------- *)
Record xest : Type := XEst { xe_acc : xacc; xe_n : nat; xe_delta : seq xn; xe_values : option (seq (seq xn)) }.

(* 109-116 *)
Definition xest_init (dim : nat) (covariance record : bool) : xest :=
  XEst (xacc_init dim covariance) 0 (nseq dim PInf) (if record then Some [::] else None).

(* 128-141 *)
Definition xest_update (e : xest) (x : arr xn) : effect xest :=
  let: (cols, X) := as_rows x in
  match xacc_update (xe_acc e) (Arr2 cols X) with
  | (a, Some ex) => (XEst a (xe_n e) (xe_delta e) (xe_values e), Some ex)
  | (a, None) =>
      (XEst a (xe_n e + size X)
        (mkseq (fun i => xsub (xat (xa_mu a) i) (xat (xa_mu (xe_acc e)) i)) (xa_dim a))
        (if xe_values e is Some vs then Some (vs ++ X) else None), None)
  end.

(* np.atleast_1d(est.estimate), 118-124, 143-145 and stats.py 13-21 *)
Definition xest_estimate (e : xest) : seq xn :=
  if xa_n (xe_acc e) == 0%N then [:: NaN] else xa_mu (xe_acc e).

(* ---- the criteria, estimators.py 205-332 ------------------------------------------ *)
Variable tppf : F -> nat -> F.
Variable zq : F -> F.

(* the criteria the package provides and their combinations, 63-73 *)
Inductive bcrit : Type :=
  | BCount of int | BTol of xn & xn & nord | BConf of F & xn & xn | BKnee of F
  | BOr of bcrit & bcrit | BAnd of bcrit & bcrit | BNot of bcrit.

(* 229-234 *)
Definition xtol_call (rtol atol : xn) (o : nord) (e : xest) : res bool :=
  bind (norm1d o (xe_delta e)) (fun err =>
  if xlt err atol then Ok true
  else bind (norm1d o (xest_estimate e)) (fun ne => Ok (xlt err (xmul rtol ne)))).

(* 280-293; the truth value of an array raises ValueError *)
Definition xconf_call (conf : F) (atol rtol : xn) (e : xest) : res bool :=
  let n := xe_n e in
  if (n < 3)%N then Ok (xle PInf atol || xle PInf rtol)
  else match xa_S (xe_acc e) with
  | None => Err AttributeError
  | Some Sx =>
      if xa_dim (xe_acc e) == 1%N then
        let std_error := xdiv (xsqrt (xvar (xe_acc e) Sx)) (Fin (Num.sqrt n%:R)) in
        let rel_error := xabs (xdiv std_error (head NaN (xest_estimate e))) in
        let score := if (n < 30)%N then t_scores tppf conf n else zq conf in
        Ok (xle (xmul (Fin score) std_error) atol || xle rel_error rtol)
      else Err ValueError
  end.

(* 306-327 *)
Definition xknee_y (mv : seq xn) : seq xn :=
  let s := mkseq (fun i => xdiv (xat mv i) (Fin i.+1%:R)) (size mv) in
  let d := mkseq (fun i => xabs (xsub (xat s i.+1) (xat s i))) (size s).-1 in
  mkseq (fun i => xsum (take i.+1 d)) (size d).
Definition xfold (f : xn -> xn -> xn) (s : seq xn) : xn := foldr f (xat s 0) s.
Definition xknee_curve (y : seq xn) : seq xn :=
  let lo := xfold (@xmin F) y in
  let hi := xfold (@xmax F) y in
  mkseq (fun i => xsub (xdiv (xsub (xat y i) lo) (xsub hi lo)) (Fin (linspace01 F (size y) i))) (size y).
Definition xknee_call (sens : F) (e : xest) : res bool :=
  match xe_values e with
  | None => Ok false
  | Some vs =>
      if (size vs < 3)%N then Ok false
      else
        let y := xknee_y (flatten vs) in
        if y is [::] then Err ValueError
        else
          let dc := xknee_curve y in
          let max_diff := curve_max dc in
          let threshold := xsub max_diff (xdiv (Fin sens) (Fin ((size y).-1)%:R)) in
          Ok (xlt threshold max_diff && xlt (last NaN dc) threshold)
  end.

Fixpoint xcrit_call (c : bcrit) (e : xest) : res bool :=
  match c with
  | BCount n => Ok (n <= (xe_n e)%:Z)                                          (* 213-214 *)
  | BTol r a o => xtol_call r a o e
  | BConf q a r => xconf_call q a r e
  | BKnee s => xknee_call s e
  | BOr a b => bind (xcrit_call a e) (fun x => bind (xcrit_call b e) (fun y => Ok (x || y)))
  | BAnd a b => bind (xcrit_call a e) (fun x => bind (xcrit_call b e) (fun y => Ok (x && y)))
  | BNot a => bind (xcrit_call a e) (fun x => Ok (~~ x))
  end.

(* trace.py 92-94 *)
Definition bdefault : bcrit := BOr (BCount 200) (BConf (19%:R / 20%:R) (Fin 1) (Fin 0)).

(* ---- hutch, trace.py 97-116 --------------------------------------------------------- *)
Section Hutch.
Variable G : Type.
Variable N : nat.
(* quad_form(v) of the operator for one column *)
Variable qx : 'cV[F]_N -> xn.

Record xlstate : Type := XL { xl_est : xest; xl_gen : G; xl_probes : seq 'cV[F]_N }.

Definition xhutch_body (sample : sampler F G N) (b : int) (st : xlstate) : res xlstate :=
  if b < 0 then Err ValueError
  else
    let: (vs, g') := sample `|b|%N (xl_gen st) in
    match xest_update (xl_est st) (Arr1 [seq qx v | v <- vs]) with
    | (_, Some e) => Err e
    | (est', None) => Ok (XL est' g' (xl_probes st ++ vs))
    end.

(* the number returned and the probes; `many` says that full or a callback is given *)
Definition xhutch (fuel : nat) (batch : int) (sample : sampler F G N) (c : bcrit) (record many : bool) (g : G)
  : option (res (xn * seq 'cV[F]_N)) :=
  if N == 0%N then Some (Ok (Fin 0, [::]))
  else
    omap (fun r => bind r (fun st => Ok (head NaN (xest_estimate (xl_est st)), xl_probes st)))
      (while_not fuel (fun st => xcrit_call c (xl_est st)) (xhutch_body sample (if many then batch else 1))
        (XL (xest_init 1 true record) g [::])).
End Hutch.

(* ---- diag, diagonal.py 55-92 --------------------------------------------------------- *)
Section Diag.
Variable G : Type.
Variable N : nat.
(* the product A @ v *)
Variable mv : 'cV[F]_N -> seq xn.

Record xdstate : Type := XD { xd_est : xest; xd_gen : G; xd_numer : seq xn; xd_denom : seq xn; xd_seen : seq 'cV[F]_N }.

Definition xdiag_body (sample : sampler F G N) (st : xdstate) : res xdstate :=
  let: (vs, g') := sample 1%N (xd_gen st) in
  let v := head 0 vs in
  let ve := [seq Fin (v i 0) | i <- enum 'I_N] in
  let numer := mkseq (fun i => xadd (xat (xd_numer st) i) (xmul (xat (mv v) i) (xat ve i))) N in
  let denom := mkseq (fun i => xadd (xat (xd_denom st) i) (xmul (xat ve i) (xat ve i))) N in
  match xest_update (xd_est st) (Arr2 N [:: mkseq (fun i => xdiv (xat numer i) (xat denom i)) N]) with
  | (_, Some e) => Err e
  | (est', None) => Ok (XD est' g' numer denom (rcons (xd_seen st) v))
  end.

Definition xdiag (fuel : nat) (sample : sampler F G N) (c : bcrit) (record : bool) (g : G)
  : option (res (seq xn * seq 'cV[F]_N)) :=
  if N == 0%N then Some (Ok ([:: Fin 0], [::]))
  else
    omap (fun r => bind r (fun st => Ok (xest_estimate (xd_est st), xd_seen st)))
      (while_not fuel (fun st => xcrit_call c (xd_est st)) (xdiag_body sample)
        (XD (xest_init N false record) g (nseq N (Fin 0)) (nseq N (Fin 0)) [::])).
End Diag.
End NonFinite.
