(* Specification: the textbook three-term Lanczos recurrence, which keeps every
   vector, and the symmetric tridiagonal (Jacobi) matrix. *)
From mathcomp Require Import all_ssreflect all_algebra.
Set Implicit Arguments.
Unset Strict Implicit.
Unset Printing Implicit Defensive.
Import Order.TTheory GRing.Theory Num.Theory.
Local Open Scope ring_scope.

Section Spec.
Variable F : rcfType.

Definition inner n (x y : 'cV[F]_n) : F := \sum_i x i 0 * y i 0.
Definition vnorm n (x : 'cV[F]_n) : F := Num.sqrt (inner x x).

Section Recurrence.
Variable n : nat.
Variable A : 'M[F]_n.
Variable q0 : 'cV[F]_n.

(* r_j = A q_j - b_j q_(j-1) - a_j q_j,  b_(j+1) = |r_j|,  q_(j+1) = r_j / b_(j+1) *)
Definition tri_resid (qp q : 'cV[F]_n) (b : F) : 'cV[F]_n :=
  let w := A *m q - b *: qp in w - inner q w *: q.

Fixpoint tri (j : nat) : 'cV[F]_n * 'cV[F]_n * F :=
  if j is j'.+1 then
    let: (qp, q, b) := tri j' in
    let r := tri_resid qp q b in (q, (vnorm r)^-1 *: r, vnorm r)
  else (0, q0, 0).

Definition lq (j : nat) : 'cV[F]_n := (tri j).1.2.
Definition lb (j : nat) : F := (tri j).2.
Definition la (j : nat) : F := let: (qp, q, b) := tri j in inner q (A *m q - b *: qp).
Definition lr (j : nat) : 'cV[F]_n := let: (qp, q, b) := tri j in tri_resid qp q b.

(* the iteration ends after k steps: k = deg, or the k-th residual norm is the
   first one below the tolerance *)
Definition stop_at (tol : F) (deg k : nat) : Prop :=
  [/\ (0 < k <= deg)%N, (forall i, (0 < i < k)%N -> tol <= lb i) & k = deg \/ lb k < tol].
End Recurrence.

(* the k x k symmetric tridiagonal matrix with diagonal d 0, .., d (k-1) and
   off-diagonal e 1, .., e (k-1) *)
Definition jacobi (k : nat) (d e : nat -> F) : 'M[F]_k :=
  \matrix_(i, j) (if i == j :> nat then d i
                  else if i.+1 == j then e j
                  else if j.+1 == i then e i else 0).
End Spec.
