(* Model of the remaining operators of src/primate/operators.py: class Toeplitz
   (165-186) and normalize_unit (189-197), with the few scipy LinearOperator
   methods they rely on. *)
From mathcomp Require Import all_ssreflect all_algebra.
From mathcomp.real_closed Require Import complex.
From Verif Require Import Base.
Set Implicit Arguments.
Unset Strict Implicit.
Unset Printing Implicit Defensive.
Import Order.TTheory GRing.Theory Num.Theory.
Local Open Scope ring_scope.

Section Toeplitz.
Variable F : rcfType.
Local Notation C := (complex F).
(* the constant exp(-2 pi i / N) of numpy's FFT, for every N *)
Variable root : nat -> C.

(* numpy.fft.fft(a): ValueError for no data points.  The transform is taken by its
   definition sum_m a[m] root^(m k); the fast algorithm is numpy's business. *)
Definition fft (a : seq C) : res (seq C) :=
  let N := size a in
  if N == 0%N then Err ValueError
  else Ok (mkseq (fun k => \sum_(m < N) a`_m * root N ^+ (m * k)) N).
(* numpy.fft.ifft(a) *)
Definition ifft (a : seq C) : res (seq C) :=
  let N := size a in
  if N == 0%N then Err ValueError
  else Ok (mkseq (fun m => N%:R^-1 * \sum_(k < N) a`_k * (root N)^-1 ^+ (m * k)) N).
Definition realpart (a : seq C) : seq F := [seq complex.Re z | z <- a].
Definition tocomplex (a : seq F) : seq C := [seq real_complex F x | x <- a].

(* 1-d product with numpy broadcasting of length-1 arrays *)
Definition mul_bcast (a b : seq C) : res (seq C) :=
  if size a == size b then Ok [seq z.1 * z.2 | z <- zip a b]
  else if size a == 1%N then Ok [seq a`_0 * z | z <- b]
  else if size b == 1%N then Ok [seq z * b`_0 | z <- a]
  else Err ValueError.

(* the attributes of a Toeplitz object; t_cast is the conversion to `dtype` *)
Record tobj : Type := TObj { t_c : seq F; t_r : seq F; t_dfft : seq F; t_z : seq F; t_n : nat; t_cast : F -> F }.

(* operators.py 169-176 for one-dimensional c and r *)
Definition t_init (c : seq F) (r : option (seq F)) (cast : F -> F) : res tobj :=
  let r := if r is Some r then r else c in                                   (* 171 *)
  let d := c ++ [:: 0] ++ rev (behead r) in                                  (* 172 *)
  bind (fft (tocomplex d)) (fun df =>
  Ok (TObj c r (realpart df) (nseq (size c * 2) 0) (size c) cast)).          (* 173-176 *)

(* operators.py 179-184 for a vector x of shape (m,) or (m,1) *)
Definition t__matvec (T : tobj) (x : seq F) : tobj * res (seq F) :=
  if size x != size (t_c T) then (T, Err AssertionError) else                (* 180 *)
  let z := [seq t_cast T y | y <- x] ++ drop (t_n T) (t_z T) in              (* 181 *)
  let T' := TObj (t_c T) (t_r T) (t_dfft T) z (t_n T) (t_cast T) in
  (T', bind (fft (tocomplex z)) (fun xf =>                                   (* 182 *)
       bind (mul_bcast (tocomplex (t_dfft T)) xf) (fun p =>
       bind (ifft p) (fun y =>                                               (* 183 *)
       Ok [seq t_cast T v | v <- take (t_n T) (realpart y)])))).             (* 184 *)

(* scipy LinearOperator.matvec (also reached by T @ x): dimensions are checked first *)
Definition t_matvec (T : tobj) (x : seq F) : tobj * res (seq F) :=
  if size x != t_n T then (T, Err ValueError) else t__matvec T x.

(* any history of calls on one object; exceptions are caught by the caller *)
Inductive tcall : Type := TMatvec of seq F | TPrivate of seq F.
Definition t_call (T : tobj) (k : tcall) : tobj :=
  match k with TMatvec x => (t_matvec T x).1 | TPrivate x => (t__matvec T x).1 end.
Definition t_run (T : tobj) (h : seq tcall) : tobj := foldl t_call T h.

End Toeplitz.

Section Normalize.
Variable F : rcfType.

(* scipy.sparse.linalg.LinearOperator expressions: an operator given by its matvec,
   IdentityOperator, _SumLinearOperator and _ScaledLinearOperator *)
Inductive lop : Type :=
  | LGiven of (seq F -> seq F)
  | LIdent
  | LSum of lop & lop
  | LScale of F & lop.
Fixpoint lop_apply (o : lop) (x : seq F) : seq F :=
  match o with
  | LGiven f => f x
  | LIdent => x
  | LSum a b => [seq z.1 + z.2 | z <- zip (lop_apply a x) (lop_apply b x)]
  | LScale a b => [seq a * y | y <- lop_apply b x]
  end.
(* LinearOperator.__truediv__ with a Python float: the reciprocal is taken first *)
Definition lop_div (o : lop) (a : F) : res lop :=
  if a == 0 then Err ZeroDivisionError else Ok (LScale (1 / a) o).

(* eigsh(A, k=1, which="LM", return_eigenvectors=False).item(): ValueError for
   non-square A; TypeError for a LinearOperator with k >= n; otherwise the value found
   by ARPACK, a parameter *)
Variable arpack : (seq F -> seq F) -> nat -> F.
Definition eigsh1 (f : seq F -> seq F) (m n : nat) : res F :=
  if m != n then Err ValueError else if (n <= 1)%N then Err TypeError else Ok (arpack f n).

(* operators.py 189-197 for an operator of shape (m, n) with matvec f; `interval` is
   accepted and never read *)
Definition normalize_unit (f : seq F -> seq F) (m n : nat) (interval : F * F) : res lop :=
  bind (eigsh1 f m n) (fun alpha =>                                          (* 193 *)
  lop_div (LSum (LGiven f) (LScale alpha LIdent)) (2%:R * alpha)).           (* 194-197 *)
End Normalize.
