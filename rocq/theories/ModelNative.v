(* The operators of /repo/src/primate/include/eigen_operators.h, on bounds-checked memory.

   Memory is one array of numbers; a pointer is a position in it.  Reading or writing outside
   (undefined behaviour in C++) is None.  Eigen evaluates `output = A * input` into a temporary
   before assigning, so input and output may overlap.  An Eigen matrix is a matrix: how Eigen
   stores a sparse one is not modelled; neither are the timers. *)
From mathcomp Require Import all_ssreflect all_algebra.
Set Implicit Arguments.
Unset Strict Implicit.
Unset Printing Implicit Defensive.
Import GRing.Theory.
Local Open Scope ring_scope.

Section Native.
Variable F : fieldType.

(* Eigen::Map< const Vector >(inp, len): eigen_operators.h 26, 34, 67, 81, 85, 121 *)
Definition window (m : seq F) (p len : nat) : option (seq F) :=
  if (p + len <= size m)%N then Some (take len (drop p m)) else None.
(* Eigen::Map< Vector >(out, len) = values: eigen_operators.h 27-28, 35-36, 69-70, 72-73, 82-83, 86-87, 122-123 *)
Definition store (m : seq F) (p : nat) (xs : seq F) : option (seq F) :=
  if (p + size xs <= size m)%N then Some (take p m ++ xs ++ drop (p + size xs) m) else None.

Definition vec_of n (s : seq F) : 'cV[F]_n := \col_i s`_i.
Definition seq_of n (v : 'cV[F]_n) : seq F := [seq v i 0 | i <- enum 'I_n].

Section Op.
Variables (r c : nat) (A : 'M[F]_(r, c)).

(* DenseEigenLinearOperator: matvec 24-30, rmatvec 32-38 *)
Definition dense_matvec (m : seq F) (inp out : nat) : option (seq F) :=
  obind (fun x => store m out (seq_of (A *m vec_of c x))) (window m inp c).
Definition dense_rmatvec (m : seq F) (inp out : nat) : option (seq F) :=
  obind (fun x => store m out (seq_of (A^T *m vec_of r x))) (window m inp r).

(* column j of a column-major array with `len` rows *)
Definition col_of (len : nat) (s : seq F) (j : nat) : seq F := take len (drop (j * len) s).
(* matmat 40-46 (dense) and 92-98 (sparse, whether gram or not) *)
Definition native_matmat (m : seq F) (inp out k : nat) : option (seq F) :=
  obind (fun x => store m out (flatten [seq seq_of (A *m vec_of c (col_of c x j)) | j <- iota 0 k])) (window m inp (c * k)).

(* SparseEigenLinearOperator< F, gram >: matvec 65-76, rmatvec 78-90 *)
Definition sparse_matvec (gram : bool) (m : seq F) (inp out : nat) : option (seq F) :=
  if gram then obind (fun x => store m out (seq_of (A^T *m (A *m vec_of c x)))) (window m inp c)
  else obind (fun x => store m out (seq_of (A *m vec_of c x))) (window m inp c).
Definition sparse_rmatvec (gram : bool) (m : seq F) (inp out : nat) : option (seq F) :=
  if gram then obind (fun x => store m out (seq_of (A^T *m (A *m vec_of c x)))) (window m inp c)
  else obind (fun x => store m out (seq_of (A^T *m vec_of r x))) (window m inp r).

(* shape 48-50, 100-102, 127-129 *)
Definition native_shape (_ : 'M[F]_(r, c)) : nat * nat := (r, c).
End Op.

(* SparseEigenAffineOperator 105-134.  B has A's shape (Eigen's sum requires it). *)
Section Affine.
Variables (r c : nat) (A B : 'M[F]_(r, c)).
(* _param, n_matvecs *)
Record affine : Type := Affine { af_param : F; af_count : nat }.
(* constructor 113-118 *)
Definition affine_init : affine := Affine 0 0.
(* set_parameter 131-133 *)
Definition affine_set (t : F) (o : affine) : affine := Affine t (af_count o).
(* matvec 120-125 *)
Definition affine_matvec (o : affine) (m : seq F) (inp out : nat) : option (affine * seq F) :=
  obind (fun x => omap (fun m' => (Affine (af_param o) (af_count o).+1, m'))
    (store m out (seq_of ((A + af_param o *: B) *m vec_of c x)))) (window m inp c).

Inductive acall : Type := ASet of F | AMatvec of nat & nat.
Fixpoint affine_run (o : affine) (m : seq F) (h : seq acall) : option (affine * seq F) :=
  match h with
  | [::] => Some (o, m)
  | ASet t :: h' => affine_run (affine_set t o) m h'
  | AMatvec i j :: h' => obind (fun p => affine_run p.1 p.2 h') (affine_matvec o m i j)
  end.
End Affine.
End Native.
