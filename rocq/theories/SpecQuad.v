(* Specification: polynomials of a matrix. *)
From mathcomp Require Import all_ssreflect all_algebra.
Set Implicit Arguments.
Unset Strict Implicit.
Unset Printing Implicit Defensive.
Import GRing.Theory.
Local Open Scope ring_scope.

Section Spec.
Variable F : fieldType.

Fixpoint mxpow n (A : 'M[F]_n) (i : nat) : 'M[F]_n := if i is i'.+1 then A *m mxpow A i' else 1%:M.

(* p(A) *)
Definition polymx n (p : {poly F}) (A : 'M[F]_n) : 'M[F]_n := \sum_(i < size p) p`_i *: mxpow A i.
End Spec.
