(* Model of /repo/src/primate/fttr.py and of /repo/src/primate/integrate.py.

   fttr divides by off-diagonal entries and by a square root, so its arithmetic
   is that of extended numbers.  Numbers are otherwise exact. *)
From Coq Require Import String.
From mathcomp Require Import all_ssreflect all_algebra.
From Verif Require Import Base ModelTqli.
Set Implicit Arguments.
Unset Strict Implicit.
Unset Printing Implicit Defensive.
Import Order.TTheory GRing.Theory Num.Theory.
Local Open Scope string_scope.
Local Open Scope ring_scope.

(* What a call can end in.  Undef: an access outside an array in compiled code
   (an IndexError if the module is run uncompiled).  NonFin: tqli divided by
   zero (ENonFinite); what happens to the NaNs afterwards is not followed. *)
Inductive outcome (A : Type) : Type := Undef | NonFin | Raise of exn | Ret of A.
Arguments Undef {A}.
Arguments NonFin {A}.
Arguments Raise {A} _.

Definition obnd (A B : Type) (m : outcome A) (f : A -> outcome B) : outcome B :=
  match m with Ret a => f a | Undef => Undef | NonFin => NonFin | Raise e => Raise e end.

(* s[:k]: a negative k counts from the end *)
Definition slice (T : Type) (k : int) (s : seq T) : seq T :=
  take (if 0 <= k then `|k|%N else (size s - `|k|)%N) s.

(* np.copyto(dst, src) for 1-d arrays: the new contents of dst *)
Definition copyto (T : Type) (dst src : seq T) : option (seq T) :=
  if size src == size dst then Some src
  else if src is [:: x] then Some (nseq (size dst) x) else None.

Section Quad.
Variable F : rcfType.

(* ---- fttr.py 5-11 ----------------------------------------------------------- *)
(* z[2], ..., z[n-1], 8-11; zs holds z[i-1], z[i-2] *)
Fixpoint poly_loop (x : F) (a b : seq F) (k i : nat) (z1 z2 : xnum F) : seq (xnum F) :=
  if k is k'.+1 then
    let s := xdiv (Fin (x - a`_i.-1)) (Fin b`_i) in                        (* 9 *)
    let t := xdiv (Fin (- b`_i.-1)) (Fin b`_i) in                          (* 10 *)
    let z := xadd (xmul s z1) (xmul t z2) in                               (* 11 *)
    z :: poly_loop x a b k' i.+1 z z1
  else [::].

(* the contents of z, an array of length n (fttr calls it with len(a) = len(b) = n) *)
Definition ortho_poly (x : F) (mu_sqrt_rec : xnum F) (a b : seq F) (n : nat) : option (seq (xnum F)) :=
  if (n < 2)%N then None                                                   (* z[1] *)
  else
    let z0 := mu_sqrt_rec in                                               (* 6 *)
    let z1 := xdiv (xmul (Fin (x - a`_0)) z0) (Fin b`_1) in                (* 7 *)
    Some (z0 :: z1 :: poly_loop x a b (n - 2) 2 z1 z0).

(* ---- fttr.py 17-29 ---------------------------------------------------------- *)
Definition xsum (s : seq (xnum F)) : xnum F := foldr (@xadd F) (Fin 0) s.

(* for i in range(k), 26-29 *)
Fixpoint fttr_loop (theta a b : seq F) (mu0 msr : xnum F) (k i : nat) (weights : seq (xnum F)) : option (seq (xnum F)) :=
  if k is k'.+1 then
    obind (fun p =>
      let weight := xdiv (Fin 1) (xsum [seq xmul y y | y <- p]) in         (* 28 *)
      fttr_loop theta a b mu0 msr k' i.+1 (set_nth (Fin 0) weights i (xdiv weight mu0)))  (* 29 *)
    (ortho_poly theta`_i msr a b (size a))                                 (* 27 *)
  else Some weights.

(* called with len(theta) = len(alpha) = len(beta) = len(weights) and k <= len(theta) *)
Definition fttr (theta a b : seq F) (k : int) (weights : seq (xnum F)) : option (seq (xnum F)) :=
  let mu0 := Fin (\sum_(x <- slice k theta) `|x|) in                       (* 23 *)
  let msr := xdiv (Fin 1) (xsqrt mu0) in                                   (* 24 *)
  fttr_loop theta a b mu0 msr (if 0 < k then `|k|%N else 0%N) 0 weights.

(* ---- integrate.py 9-76 -------------------------------------------------------- *)
Variable lap_vals : seq F -> seq F -> res (seq F).
Variable lap_pairs : seq F -> seq F -> res (seq F * seq (seq F)).

(* the returned pair and the contents of the output arrays *)
Record qres : Type := QRes { q_theta : seq F; q_tau : seq (xnum F);
  q_nodes : option (seq F); q_weights : option (seq (xnum F)) }.

(* 61-71.  eigh_tridiag returns a pair unless deg = 0, when the single (empty)
   array it returns cannot be unpacked. *)
Definition quad_rule (d e : seq F) (deg : int) (quad method : string) (maxiter : int) : outcome (seq F * seq (xnum F)) :=
  if String.eqb quad "gw" || String.eqb quad "golub_welsch" then
    match eigh_tridiag lap_vals lap_pairs (slice deg d) (slice deg e) method maxiter with      (* 63 *)
    | Err x => Raise x
    | Ok ENonFinite => NonFin
    | Ok (EVals _) => Raise ValueError
    | Ok (EPairs w Y) =>
        if Y is row :: _ then Ret (w, [seq Fin (y ^+ 2) | y <- row]) else Raise IndexError     (* 64 *)
    end
  else if String.eqb quad "fttr" then
    match eigvalsh_tridiag lap_vals lap_pairs d e method maxiter with                          (* 67 *)
    | Err x => Raise x
    | Ok ENonFinite => NonFin
    | Ok (EPairs w _) | Ok (EVals w) =>
        if fttr w d e deg (nseq (size w) (Fin 0)) is Some t then Ret (w, t) else Undef         (* 68-69 *)
    end
  else Raise ValueError.                                                                       (* 71 *)

Definition quadrature (d e : seq F) (deg : option int) (quad : string) (nodes : option (seq F))
    (weights : option (seq (xnum F))) (method : string) (maxiter : int) : outcome qres :=
  let deg := if deg is Some k then Num.min k (size d)%:Z else (size d)%:Z in                   (* 57 *)
  let e := if (size e).+1 == size d then 0 :: e else e in                                      (* 58 *)
  if size d != size e then Raise AssertionError                                                (* 59 *)
  else if size e == 0%N then Raise IndexError
  else if ~~ isclose0 e`_0 then Raise AssertionError
  else
    obnd (quad_rule d e deg quad method maxiter) (fun r =>
      let: (theta, tau) := r in
      match nodes, weights with                                                                (* 72-75 *)
      | Some ns, Some ws =>
          if ((size ns)%:Z != deg) || ((size ws)%:Z != deg) then Raise AssertionError
          else match copyto ns theta, copyto ws tau with
               | Some ns', Some ws' => Ret (QRes theta tau (Some ns') (Some ws'))
               | _, _ => Raise ValueError
               end
      | _, _ => Ret (QRes theta tau nodes weights)
      end).
End Quad.
