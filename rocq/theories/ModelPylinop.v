(* Model of PyLinearOperator (/repo/src/primate/include/pylinop.h 15-72): the wrapper through which the native Lanczos
   kernel calls the `matvec` method of a Python object, and of the kernel run with such an operand.

   A numpy array is a window into a block of memory: the address of its first element and the distance between
   consecutive elements (its stride), which need not be 1 and may be negative.  Reads outside the block are undefined
   behaviour (None).  Only vector-like results (1-d, or 2-d with a single row or column) are modelled. *)
From mathcomp Require Import all_ssreflect all_algebra.
From Verif Require Import Base ModelLanczos ModelToeplitz.
Set Implicit Arguments.
Unset Strict Implicit.
Unset Printing Implicit Defensive.
Import Order.TTheory GRing.Theory Num.Theory.
Local Open Scope ring_scope.

Section Pylinop.
Variable F : rcfType.
Variable eps : F.

(* v_same: the dtype of the array is the kernel's floating-point type *)
Record ndvec : Type := NdVec { v_mem : seq F; v_off : nat; v_len : nat; v_str : int; v_same : bool }.

(* address of element i *)
Definition v_addr (y : ndvec) (i : nat) : int := (v_off y)%:Z + v_str y * i%:Z.
(* the elements as Python sees them *)
Definition v_elems (y : ndvec) : seq F := mkseq (fun i => (v_mem y)`_`|v_addr y i|) (v_len y).

(* matvec_out.cast<py::array_t<F>>(), 35: the flags of py::array_t<F> do not ask for a contiguous array, so an
   array of the right dtype is taken as it is; another dtype is converted into a new array *)
Definition as_array_t (y : ndvec) : ndvec :=
  if v_same y then y else NdVec (v_elems y) 0 (v_len y) 1 true.

(* std::copy(output.data(), output.data() + _shape.first, out), 37: neither the length nor the stride of the
   array is looked at *)
Definition copy_out (rows : nat) (y : ndvec) : option (seq F) := rdv (v_mem (as_array_t y)) (v_off (as_array_t y)) rows.

(* The Python object: its `matvec` attribute, a function of the (fresh, contiguous) input array that may raise and
   may change the state s of the object. *)
Variable S : Type.
Definition pymatvec : Type := seq F -> S -> res ndvec * S.

(* pylinop.h 31-39; py::error_already_set is not caught by the kernel and becomes the Python exception again *)
Definition py_matvec (rows : nat) (f : pymatvec) (x : seq F) (s : S) : option (res (seq F) * S) :=
  match f x s with
  | (Err e, s') => Some (Err e, s')
  | (Ok y, s') => omap (fun out => (Ok out, s')) (copy_out rows y)
  end.

(* scipy.sparse.linalg.LinearOperator.matvec for a 1-d argument around the class's _matvec g: the argument must have
   N elements and the result must have M; reshape of a vector-like array keeps its memory and stride *)
Definition scipy_matvec (M N : nat) (g : pymatvec) : pymatvec := fun x s =>
  if size x != N then (Err ValueError, s)
  else match g x s with
  | (Ok y, s') => (if v_len y == M then Ok y else Err ValueError, s')
  | (Err e, s') => (Err e, s')
  end.

(* ---- lanczos_recurrence<F, PyLinearOperator<F>>, lanczos.h 92-149 --------------------- *)
(* one iteration; as ModelLanczos.kstep except for the call of A.matvec in line 127, which may raise *)
Definition kstep_py (n m : nat) (f : pymatvec) (tol : F) (deg orth : int) (ncv j p c nx : nat) (st : kst F) (s : S)
  : option (res (kst F * bool) * S) :=
  let: KSt q al be V := st in
  obind (fun x =>                                                   (* 127 *)
  obind (fun ys : res (seq F) * S =>
  let: (r, s') := ys in
  match r with
  | Ok y =>
    omap (fun z => (Ok z, s'))
   (obind (fun q1 =>
    obind (fun bj => obind (fun qp => obind (fun v1 => obind (fun v2 => (* 128 *)
    obind (fun qc => obind (fun a =>                                  (* 129 *)
    obind (fun al' =>
    obind (fun v3 =>                                                  (* 130 *)
    obind (fun v4 =>                                                  (* 133-136 *)
    let b := Num.sqrt (sqnorm v4) in                                  (* 139 *)
    obind (fun be' =>
    obind (fun q' =>
    if (b < tol) || (j%:Z + 1 == deg) then Some (KSt q' al' be' V, true)   (* 140-142 *)
    else obind (fun V' => Some (KSt q' al' be' V', false))
           (wcol n V nx [seq y / b | y <- v4]))                       (* 143 *)
    (wrv q1 0 v4))
    (wr be j.+1 b))
    (if 0 < orth then orth_vector eps n ncv V c%:Z orth true v3 else Some v3))
    (esubs v2 a qc))
    (wr al j a)) (edot qc v2)) (rcol n V c))
    (esubs v1 bj qp)) (rdv q1 0 m)) (rcol n V p)) (rd be j))
    (wrv q 0 y))
  | Err e => Some (Err e, s')
  end)
  (py_matvec n f x s))
  (rdv V (c * n) m).

Fixpoint kloop_py (n m : nat) (f : pymatvec) (tol : F) (deg orth : int) (ncv : nat) (r j p c nx : nat) (st : kst F) (s : S)
  : option (res (kst F) * S) :=
  if r is r'.+1 then
    obind (fun z : res (kst F * bool) * S =>
      match z with
      | (Err e, s') => Some (Err e, s')
      | (Ok (st', true), s') => Some (Ok st', s')
      | (Ok (st', false), s') => kloop_py n m f tol deg orth ncv r' j.+1 c nx `|cmod (j%:Z + 2) ncv%:Z|%N st' s'
      end)
      (kstep_py n m f tol deg orth ncv j p c nx st s)
  else Some (Ok st, s).

(* lanczos.h 104-149 with A = PyLinearOperator(op), op.shape = (n, m) *)
Definition lanczos_py (n m : nat) (f : pymatvec) (q : seq F) (deg : int) (rtol : F) (orth : int)
    (alpha beta V : seq F) (ncv : nat) (s : S) : option (res (kst F) * S) :=
  let p := (ncv - 1)%N in
  obind (fun V1 =>                                                  (* 119 *)
  obind (fun x => obind (fun V2 =>                                  (* 120 *)
  obind (fun be => kloop_py n m f (Num.sqrt n%:R * rtol) deg orth ncv (if 0 < deg then `|deg|%N else 0%N) 0 p 0 1
                     (KSt q alpha be V2) s)
  (wr beta 0 0))                                                    (* 121 *)
  (wcol n V1 0 (enormalized x))) (rdv q 0 m))
  (wcol n V p (nseq n 0)).

End Pylinop.

(* ---- Toeplitz as an operand, operators.py 165-186 ------------------------------------- *)
Section ToeplitzOp.
Variable F : rcfType.
Variable root : nat -> complex.complex F.
(* `y[: self.shape[0]].astype(self.dtype)`, 186: astype copies, so the result is contiguous; the dtype of the object is
   the one the kernel is instantiated with *)
Definition toeplitz_matvec : pymatvec F (tobj F) := fun x T =>
  let: (T', r) := t_matvec root T x in
  (match r with Ok y => Ok (NdVec y 0 (size y) 1 true) | Err e => Err e end, T').
End ToeplitzOp.
