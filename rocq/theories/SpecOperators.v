(* Specification: functions of a symmetric matrix. *)
From mathcomp Require Import all_ssreflect all_algebra.
Set Implicit Arguments.
Unset Strict Implicit.
Unset Printing Implicit Defensive.
Import GRing.Theory Num.Theory.
Local Open Scope ring_scope.

Section Spec.
Variable F : rcfType.

(* B = U f(L) U^T for an eigendecomposition A = U L U^T *)
Definition is_mxfun n (f : F -> F) (A B : 'M[F]_n) : Prop :=
  exists (U : 'M[F]_n) (l : 'rV[F]_n), [/\ U^T *m U = 1%:M, A *m U = U *m diag_mx l &
    B = U *m diag_mx (\row_j f (l 0 j)) *m U^T].

(* x^T B x *)
Definition qform n (B : 'M[F]_n) (x : 'cV[F]_n) : F := (x^T *m B *m x) 0 0.

(* the column with the given entries *)
Definition vec n (x : seq F) : 'cV[F]_n := \col_i x`_i.
End Spec.
