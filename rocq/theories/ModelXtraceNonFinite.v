(* xtrace with divisions by zero: /repo/src/primate/trace.py 185-315 and linalg.py 15-24 when the
   matrix R of the QR factorisation of A @ W is singular.  ModelXtrace divides in a field (x / 0 = 0)
   and lets qr_insert always succeed; here R_inv and all that is computed from it are extended
   numbers (np.reciprocal(0.) is inf), and scipy's qr_insert may raise. *)
From mathcomp Require Import all_ssreflect all_algebra.
From Verif Require Import Base ModelStats ModelEstimators ModelRandom ModelTrace ModelHutchpp ModelXtrace ModelNonFinite.
Set Implicit Arguments.
Unset Strict Implicit.
Unset Printing Implicit Defensive.
Import Order.TTheory GRing.Theory Num.Theory.
Local Open Scope ring_scope.

Section Helper.
Variable F : rcfType.
Local Notation xn := (xnum F).

Definition xtotal (s : seq xn) : xn := foldr (@xadd F) (Fin 0) s.

(* update_trinv, linalg.py 20-24, on a k x k array B (its entries) and a column b of length k + 1 *)
Definition xtrinv (k : nat) (B : nat -> nat -> xn) (b : nat -> F) : nat -> nat -> xn :=
  let r := xdiv (Fin 1) (Fin (b k)) in                                           (* 22 *)
  fun i j =>
    if (j < k)%N then (if (i < k)%N then B i j else Fin 0)                       (* 20-21 *)
    else if (i < k)%N then xmul r (xtotal [seq xmul (xopp (B i l)) (Fin (b l)) | l <- iota 0 k])  (* 23 *)
    else r.

(* S = R_inv.T / np.linalg.norm(R_inv, axis=1), trace.py 206, entry (l, i) *)
Definition xspherical (m : nat) (Ri : nat -> nat -> xn) (l i : nat) : xn :=
  xdiv (Ri i l) (xsqrt (xtotal [seq xmul (Ri i j) (Ri i j) | j <- iota 0 m])).

(* one entry of diag_prod, trace.py 200 *)
Definition xdp (m : nat) (x y : 'I_m -> xn) : xn := xtotal [seq xmul (x l) (y l) | l <- enum 'I_m].

(* _xtrace, trace.py 202-224, entry i.  pdf is a function when it is called (C38), so scale is 1. *)
Definition xhelper (n m : nat) (W Z Q : 'M[F]_(n, m)) (R : 'M[F]_m) (Ri : nat -> nat -> xn) (i : 'I_m) : xn :=
  let Wp := Q^T *m W in                                                          (* 203 *)
  let S (l : 'I_m) := xspherical m Ri l i in                                     (* 206 *)
  let H := Q^T *m Z in                                                           (* 217 *)
  let HW := H *m Wp in
  let T := Z^T *m W in
  let fin (M : 'M[F]_m) (l : 'I_m) := Fin (M l i) in
  let HS (l : 'I_m) := xdp (fun j => Fin (H l j)) S in
  let dSW := xdp S (fin Wp) in let dSHS := xdp S HS in                           (* 220 *)
  let dTW := xdp (fin T) (fin Wp) in let dWHW := xdp (fin Wp) (fin HW) in        (* 221 *)
  let dSRmHW := xdp S (fin (R - HW)) in let dTmHRS := xdp (fin (T - H^T *m Wp)) S in  (* 222 *)
  xadd (xsub (Fin (\tr H)) dSHS)                                                 (* 225 *)
    (xmul (xadd (xadd (xadd (xadd (xopp dTW) dWHW) (xmul dSW dSRmHW))
                   (xmul (xmul (xabs dSW) (xabs dSW)) dSHS))
             (xmul dTmHRS dSW)) (Fin 1)).                                        (* 226 *)
End Helper.

Section Xtrace.
Variable F : rcfType.
Variable G : Type.
Variable tppf : F -> nat -> F.
Variable zq : F -> F.
Variable n : nat.
Local Notation xn := (xnum F).
(* scipy.linalg.qr_insert(Q, R, u, k=Q.shape[1], which="col"); it may raise *)
Variable qr_insert : forall k, 'M[F]_(n, k) -> 'M[F]_k -> 'cV[F]_n -> res ('M[F]_(n, k + 1) * 'M[F]_(k + 1)).

(* Q, R, the number of rows of R_inv and its entries *)
Record xfac : Type := XFac { xf_Q : nd F; xf_R : nd F; xf_k : nat; xf_Ri : nat -> nat -> xn }.

(* 299-300 *)
Definition xinsert1 (u : 'cV[F]_n) (s : xfac) : res xfac :=
  let k := nd_c (xf_Q s) in
  bind (qr_insert (to_mx n k (xf_Q s)) (to_mx k k (xf_R s)) u) (fun QR =>
    if xf_k s != k then Err AssertionError                                       (* linalg.py 16 *)
    else Ok (XFac (of_mx QR.1) (of_mx QR.2) (k + 1) (xtrinv k (xf_Ri s) (fun i => nd_e (of_mx QR.2) i k)))).

(* 298 *)
Fixpoint xinsert_cols (us : seq 'cV[F]_n) (s : xfac) : res xfac :=
  if us is u :: us' then bind (xinsert1 u s) (xinsert_cols us') else Ok s.

Record xtstate : Type := XT {
  xt_W : nd F; xt_Z : nd F; xt_fac : xfac; xt_est : xest F; xt_gen : G; xt_probes : seq 'cV[F]_n }.

(* 279-286 *)
Definition xt_init (record : bool) (g : G) : xtstate :=
  XT (of_mx (0 : 'M[F]_(n, 0))) (of_mx (0 : 'M[F]_(n, 0)))
     (XFac (of_mx (0 : 'M[F]_(n, 0))) (of_mx (0 : 'M[F]_0)) 0 (fun _ _ => Fin 0))
     (xest_init F 1 false record) g [::].

(* 291-310 *)
Definition xt_body (A : 'M[F]_n) (batch : int) (sample : sampler F G n) (record : bool) (st : xtstate) : res xtstate :=
  let ns := minn (n - nd_c (xt_W st)) `|batch|%N in
  let: (vs, g') := sample ns (xt_gen st) in
  let N := mat_of_cols ns vs in
  let Y := A *m N in
  bind (xinsert_cols [seq col j Y | j <- enum 'I_ns] (xt_fac st)) (fun fac =>
    let W := hstack (xt_W st) (of_mx N) in
    let Ql := last_cols ns (xf_Q fac) in
    let Z := hstack (xt_Z st) (of_mx (A *m to_mx n (nd_c Ql) Ql)) in
    let m := nd_c W in
    let t := xhelper (to_mx n m W) (to_mx n m Z) (to_mx n m (xf_Q fac)) (to_mx m m (xf_R fac)) (xf_Ri fac) in
    match xest_update (xest_init F 1 false record) (Arr1 [seq t i | i <- enum 'I_m]) with
    | (_, Some e) => Err e
    | (est', None) => Ok (XT W Z fac est' g' (xt_probes st ++ vs))
    end).

(* 271-276: whatever was passed, the criterion is the count of n samples, or that or-ed with itself *)
Definition xt_crit (dflt : bool) : bcrit F := if dflt then BCount F n%:Z else BOr (BCount F n%:Z) (BCount F n%:Z).

(* 233-315 for a resolved sampler: the number returned and the probes drawn *)
Definition xtrace_x (fuel : nat) (A : 'M[F]_n) (batch : int) (sample : sampler F G n) (dflt record : bool) (g : G)
  : option (res (xn * seq 'cV[F]_n)) :=
  if ~~ (1 <= batch) then Some (Err AssertionError)
  else
    omap (fun r => bind r (fun st => Ok (head NaN (xest_estimate (xt_est st)), xt_probes st)))
      (while_not fuel (fun st => xcrit_call tppf zq (xt_crit dflt) (xt_est st)) (xt_body A batch sample record)
         (xt_init record g)).
End Xtrace.
