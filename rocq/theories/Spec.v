(* Specification vocabulary, independent of the models: textbook averages,
   scatter matrices, expectations over sign vectors, tridiagonal matrices,
   projectors. *)
From mathcomp Require Import all_ssreflect all_algebra.
Set Implicit Arguments.
Unset Strict Implicit.
Unset Printing Implicit Defensive.
Import Order.TTheory GRing.Theory Num.Theory.
Local Open Scope ring_scope.

Section Averages.
Variable F : fieldType.

(* arithmetic mean *)
Definition avg (s : seq F) : F := (\sum_(x <- s) x) / (size s)%:R.
(* i-th column of a list of rows *)
Definition col_of (X : seq (seq F)) (i : nat) : seq F := [seq x`_i | x <- X].
(* mean of coordinate i *)
Definition cavg (X : seq (seq F)) (i : nat) : F := avg (col_of X i).
(* two-pass centred sum of products of coordinates i and j *)
Definition scatter (X : seq (seq F)) (i j : nat) : F :=
  \sum_(x <- X) (x`_i - cavg X i) * (x`_j - cavg X j).
End Averages.

Section RealAverages.
Variable F : rcfType.
(* unbiased sample variance and standard error of the mean *)
Definition sample_var (a : seq F) : F := (\sum_(x <- a) (x - avg a) ^+ 2) / ((size a)%:R - 1).
Definition std_err (a : seq F) : F := Num.sqrt (sample_var a) / Num.sqrt (size a)%:R.
(* vector norms *)
Definition l1norm (s : seq F) : F := \sum_(x <- s) `|x|.
Definition l2norm (s : seq F) : F := Num.sqrt (\sum_(x <- s) x ^+ 2).
Definition linfnorm (s : seq F) : F := \big[Num.max/0]_(x <- s) `|x|.
(* residual sum of squares of the affine fit y ~ b + a.c; rows are (y,c_1..c_k) *)
Definition rss (k : nat) (X : seq (seq F)) (a : nat -> F) (b : F) : F :=
  \sum_(x <- X) (x`_0 - b - \sum_(i < k) a i * x`_i.+1) ^+ 2.
End RealAverages.
