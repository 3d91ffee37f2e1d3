(* Specification: eigendecompositions of symmetric matrices given as lists. *)
From mathcomp Require Import all_ssreflect all_algebra.
From Verif Require Import Base SpecLanczos.
Set Implicit Arguments.
Unset Strict Implicit.
Unset Printing Implicit Defensive.
Import GRing.Theory Num.Theory.
Local Open Scope ring_scope.

Section Spec.
Variable F : rcfType.

(* the m x n matrix with the given rows *)
Definition rows_mx m n (Z : seq (seq F)) : 'M[F]_(m, n) := \matrix_(i, j) (nth [::] Z i)`_j.

(* w: eigenvalues of T; Y: rows of an orthogonal matrix whose columns are
   eigenvectors *)
Definition is_eigh n (T : 'M[F]_n) (w : seq F) (Y : seq (seq F)) : Prop :=
  [/\ size w = n, size Y = n, all (fun u => size u == n) Y,
      (rows_mx n n Y)^T *m rows_mx n n Y = 1%:M &
      T *m rows_mx n n Y = rows_mx n n Y *m diag_mx (\row_j w`_j)].

(* w: eigenvalues of T with multiplicity *)
Definition is_eigvals n (T : 'M[F]_n) (w : seq F) : Prop :=
  size w = n /\ char_poly T = \prod_(i < n) ('X - (w`_i)%:P).

(* the symmetric tridiagonal matrix with diagonal d and off-diagonal e *)
Definition tri_of (d e : seq F) : 'M[F]_(size d) := jacobi (size d) (nth 0 d) (nth 0 (0 :: e)).

(* scipy's two solvers always succeed, agree, and return an orthonormal
   eigendecomposition (LemSpectral.ref_ok: there are such functions) *)
Definition lapack_ok (lv : seq F -> seq F -> res (seq F)) (lp : seq F -> seq F -> res (seq F * seq (seq F))) : Prop :=
  forall d e, size d = (size e).+1 -> exists w Y, [/\ lp d e = Ok (w, Y), lv d e = Ok w & is_eigh (tri_of d e) w Y].
End Spec.
