(* Model of /repo/src/primate/operators.py: operator validation and
   MatrixFunction.  (Toeplitz and normalize_unit are in ModelToeplitz.v.)

   Numbers are exact; values of the spectral function are extended numbers. *)
From Coq Require Import String.
From mathcomp Require Import all_ssreflect all_algebra.
From Verif Require Import Base ModelTyping ModelLanczos ModelTqli ModelQuadrature ModelSpecial.
Set Implicit Arguments.
Unset Strict Implicit.
Unset Printing Implicit Defensive.
Import Order.TTheory GRing.Theory Num.Theory.
Local Open Scope string_scope.
Local Open Scope ring_scope.

(* ---- operator validation, 15-33 ------------------------------------------------ *)
(* What the two checks look at: which product methods the object has, its shape
   (None: no such attribute), its dtype (None: no such attribute; Some None: an
   attribute that is None, as scipy's LinearOperator allows), and the dtype of
   its product with a double-precision zero vector. *)
Record odesc : Type := ODesc { o_at : bool; o_matmul : bool; o_dot : bool; o_matvec : bool;
  o_shape : option (seq nat); o_dtype : option (option dty); o_prod : dty }.

Definition o_any (o : odesc) : bool := [|| o_at o, o_matmul o, o_dot o | o_matvec o].

Definition is_valid_operator (o : odesc) : res dty :=
  if ~~ o_any o then Err AssertionError                                     (* 17 *)
  else if o_shape o is Some s then
    if (size s < 2)%N then Err AssertionError                               (* 18 *)
    else if nth 0%N s 0 != nth 0%N s 1 then Err AssertionError              (* 19 *)
    else
      bind (match o_dtype o with                                            (* 21 *)
            | None => if o_at o then Ok (o_prod o) else Err TypeError
            | Some None => Err AttributeError
            | Some (Some d) => Ok d
            end) (fun d => if d is OtherDtype then Err AssertionError else Ok d)  (* 22-23 *)
  else Err AssertionError.                                                  (* 18 *)

(* A.shape is read on line 32 even when the checks before it failed *)
Definition is_linear_op (o : odesc) : res bool :=
  if o_shape o is Some s then
    if (size s < 2)%N then Err IndexError
    else Ok (o_any o && (nth 0%N s 0 == nth 0%N s 1))
  else Err AttributeError.

(* ---- overload resolution for MatrixFunction ------------------------------------- *)
(* As ModelLanczos.resolve, but the dtype of the operand (dA) and that of the
   arrays (d, the same for the vector and the buffers) are unrelated; rtol is
   the Python float 1e-8. *)
Definition mf_try (convert : bool) (k : okind) (dA d : dty) (o : dty * wrapper) : option binding :=
  if load_op convert k dA o then
    match load_arr convert d o with Some a => Some (Binding o a a) | None => None end
  else None.
Definition mf_resolve (k : okind) (dA d : dty) : option binding :=
  match pmap (mf_try false k dA d) overloads with
  | b :: _ => Some b
  | [::] => ohead (pmap (mf_try true k dA d) overloads)
  end.

Section MF.
Variable F : rcfType.
(* machine epsilon of the kernel; the functions of special.py *)
Variables (eps : F) (fexp flog : F -> F) (feps : F).
Variable lap_vals : seq F -> seq F -> res (seq F).
Variable lap_pairs : seq F -> seq F -> res (seq F * seq (seq F)).

(* ---- the spectral function ------------------------------------------------------ *)
(* A callable maps a 1-d array to a 1-d array or sequence, or to a scalar; the
   flag says whether the result is a numpy array.  (Results with more dimensions
   are not modelled.) *)
Inductive fres : Type := FVec of bool & seq (xnum F) | FSca of bool & xnum F.
Definition mfun : Type := seq F -> fres.
Inductive mfarg : Type := MNone | MStr of string | MCall of mfun | MOther.

(* the values, as numpy's broadcasting sees them *)
Definition fvals (r : fres) : seq (xnum F) := match r with FVec _ v => v | FSca _ x => [:: x] end.

(* ---- MatrixFunction.__init__, 55-81; fun setter, 91-97 -------------------------- *)
(* the object; rtol is the constant 1e-8.  mf_mv: the operator has a method
   matvec.  The n x deg array Q is column-major. *)
Record mfobj : Type := MF { mf_n : nat; mf_fun : mfun; mf_deg : nat; mf_orth : int; mf_dt : dty; mf_mv : bool;
  mf_alpha : seq F; mf_beta : seq F; mf_nodes : seq F; mf_weights : seq (xnum F); mf_Q : seq F }.

Definition mf_rtol : F := 1 / 10%:R ^+ 8.                                   (* 79 *)

(* 91-97; the argument is callable *)
Definition fun_check (n : nat) (g : mfun) : res unit :=
  match g (nseq n 1) with
  | FVec true v => if size v == n then Ok tt else Err AssertionError        (* 96 *)
  | FSca true _ => Err IndexError                                           (* 96: shape[-1] of () *)
  | _ => Err AssertionError                                                 (* 95 *)
  end.

Definition mf_init (o : odesc) (f : mfarg) (kw : fkw F) (deg orth : int) (d : dty) : res mfobj :=
  bind (is_linear_op o) (fun ok =>
  if ~~ ok then Err AssertionError                                          (* 58 *)
  else if deg < 2 then Err AssertionError                                   (* 59 *)
  else
    let n := nth 0%N (odflt [::] (o_shape o)) 0 in
    bind (match f with                                                      (* 64-65 *)
          | MNone => Ok (fun xs => FVec true [seq Fin x | x <- xs])
          | MStr s => bind (param_callable fexp flog feps (XStr s) kw) (fun g => Ok (fun xs => FVec true (g xs)))
          | MCall g => Ok g
          | MOther => Err AssertionError                                    (* 93 *)
          end) (fun g =>
    bind (fun_check n g) (fun _ =>
    let dg := minn `|deg| n in                                              (* 68 *)
    Ok (MF n g dg (if (orth < 0) || (dg%:Z < orth) then dg%:Z else orth) d (o_matvec o)  (* 80 *)
          (nseq dg.+1 0) (nseq dg.+1 0) (nseq dg 0) (nseq dg (Fin 0)) (nseq (n * dg) 0))))). (* 69-77 *)

(* ---- the native call, 119 and 148 ------------------------------------------------ *)
(* pylinop.h 24: the wrapper of a Python object wants its method matvec.  When
   the arrays had to be converted the kernel works on copies and the object's
   buffers keep their contents. *)
Definition mf_lanczos (n : nat) (A : 'M[F]_n) (k : okind) (dA : dty) (M : mfobj) (x : seq F)
  : outcome mfobj :=
  match mf_resolve k dA (mf_dt M) with
  | None => Raise TypeError
  | Some bd =>
      if (if (b_ov bd).2 is WObject then ~~ mf_mv M else false) then Raise ValueError
      else match lanczos_recurrence eps A x (mf_deg M)%:Z mf_rtol (mf_orth M)
              (mf_alpha M) (mf_beta M) (mf_Q M) (mf_deg M) with
      | None => Undef
      | Some st =>
          Ret (if b_out bd then MF (mf_n M) (mf_fun M) (mf_deg M) (mf_orth M) (mf_dt M) (mf_mv M)
                                  (k_alpha st) (k_beta st) (mf_nodes M) (mf_weights M) (k_V st)
               else M)
      end
  end.

(* ---- _matvec, 102-124 ------------------------------------------------------------ *)
(* product of two 1-d arrays with broadcasting; None: ValueError *)
Definition np_mul (u v : seq (xnum F)) : option (seq (xnum F)) :=
  if size u == size v then Some [seq xmul p.1 p.2 | p <- zip u v]
  else if u is [:: a] then Some [seq xmul a b | b <- v]
  else if v is [:: b] then Some [seq xmul a b | a <- u]
  else None.

(* s * Q @ Y @ v for the n x k array Q (column-major) and the k x k array Y (rows) *)
Definition qyv (n k : nat) (s : F) (Q : seq F) (Y : seq (seq F)) (v : seq (xnum F)) : seq (xnum F) :=
  mkseq (fun i => xsum (mkseq (fun j =>
    xmul (Fin (\sum_(l < k) s * Q`_(l * n + i) * (nth [::] Y l)`_j)) (nth (Fin 0) v j)) k)) n.

Definition zero_Q (M : mfobj) : mfobj :=
  MF (mf_n M) (mf_fun M) (mf_deg M) (mf_orth M) (mf_dt M) (mf_mv M)
     (mf_alpha M) (mf_beta M) (mf_nodes M) (mf_weights M) (nseq (size (mf_Q M)) 0).

(* The result and the object afterwards.  (Q always has deg columns: 113-114 and
   138-139 do nothing.) *)
Definition mf__matvec (n : nat) (A : 'M[F]_n) (k : okind) (dA : dty) (M : mfobj) (x : seq F)
  : outcome (seq (xnum F)) * mfobj :=
  let M := zero_Q M in                                                      (* 116 *)
  let x_norm := Num.sqrt (sqnorm x) in                                      (* 118 *)
  match mf_lanczos A k dA M x with                                          (* 119 *)
  | Undef => (Undef, M) | NonFin => (NonFin, M) | Raise e => (Raise e, M)
  | Ret M =>
      let d := mf_deg M in
      (match eigh_tridiag lap_vals lap_pairs (take d (mf_alpha M)) (drop 1 (take d (mf_beta M))) "auto" 30 with  (* 122 *)
       | Err e => Raise e
       | Ok ENonFinite => NonFin
       | Ok (EVals _) => Raise ValueError
       | Ok (EPairs rw Y) =>
           match np_mul (fvals (mf_fun M rw)) [seq Fin y | y <- nth [::] Y 0] with                              (* 124 *)
           | Some v => if size v == d then Ret (qyv n d x_norm (mf_Q M) Y v) else Raise ValueError
           | None => Raise ValueError
           end
       end, M)
  end.

(* LinearOperator.matvec, which M @ x and M.dot(x) call for a 1-d array *)
Definition mf_matvec (n : nat) (A : 'M[F]_n) (k : okind) (dA : dty) (M : mfobj) (x : seq F)
  : outcome (seq (xnum F)) * mfobj :=
  if size x != mf_n M then (Raise ValueError, M) else mf__matvec A k dA M x.

(* ---- quad, 126-151 --------------------------------------------------------------- *)
(* one column, 146-150 *)
Definition mf_quad1 (n : nat) (A : 'M[F]_n) (k : okind) (dA : dty) (M : mfobj) (x : seq F)
  : outcome (xnum F) * mfobj :=
  let x_norm_sq := Num.sqrt (sqnorm x) ^+ 2 in                              (* 147 *)
  match mf_lanczos A k dA M x with                                          (* 148 *)
  | Undef => (Undef, M) | NonFin => (NonFin, M) | Raise e => (Raise e, M)
  | Ret M =>
      match quadrature lap_vals lap_pairs (mf_alpha M) (mf_beta M) (Some (mf_deg M)%:Z) "gw"
              (Some (mf_nodes M)) (Some (mf_weights M)) "auto" 30 with      (* 149 *)
      | Undef => (Undef, M) | NonFin => (NonFin, M) | Raise e => (Raise e, M)
      | Ret r =>
          let ns := odflt (mf_nodes M) (q_nodes r) in
          let ws := odflt (mf_weights M) (q_weights r) in
          let M := MF (mf_n M) (mf_fun M) (mf_deg M) (mf_orth M) (mf_dt M) (mf_mv M)
                     (mf_alpha M) (mf_beta M) ns ws (mf_Q M) in
          (if np_mul (fvals (mf_fun M ns)) ws is Some v
           then Ret (xmul (xsum v) (Fin x_norm_sq)) else Raise ValueError, M)   (* 150 *)
      end
  end.

(* The argument is given by its columns (a 1-d array is a single column). *)
Fixpoint mf_quad (n : nat) (A : 'M[F]_n) (k : okind) (dA : dty) (M : mfobj) (X : seq (seq F))
  : outcome (seq (xnum F)) * mfobj :=
  if X is x :: X' then
    let: (r, M1) := mf_quad1 A k dA M x in
    match r with
    | Ret y => let: (r', M2) := mf_quad A k dA M1 X' in (obnd r' (fun ys => Ret (y :: ys)), M2)
    | Undef => (Undef, M1) | NonFin => (NonFin, M1) | Raise e => (Raise e, M1)
    end
  else (Ret [::], M).

(* ---- matrix_function, 155-161 ----------------------------------------------------- *)
Definition no_kw : fkw F := FKw None None None None None.
Definition matrix_function (n : nat) (A : 'M[F]_n) (k : okind) (dA : dty) (o : odesc) (f : mfarg)
    (v : option (seq F)) (deg : int) : outcome (mfobj + seq (xnum F)) :=
  match mf_init o f no_kw deg 3 F64 with
  | Err e => Raise e
  | Ok M => if v is Some x then obnd (mf__matvec A k dA M x).1 (fun y => Ret (inr y)) else Ret (inl M)
  end.

(* ---- histories --------------------------------------------------------------------- *)
(* Calls on one object.  None: a call had undefined behaviour or stored NaNs. *)
Inductive mfcall : Type := CMatvec of seq F | CQuad of seq (seq F).
Definition mf_call (n : nat) (A : 'M[F]_n) (k : okind) (dA : dty) (M : mfobj) (c : mfcall)
  : outcome (seq (xnum F)) * mfobj :=
  match c with CMatvec x => mf_matvec A k dA M x | CQuad X => mf_quad A k dA M X end.
Fixpoint mf_run (n : nat) (A : 'M[F]_n) (k : okind) (dA : dty) (M : mfobj) (h : seq mfcall) : option mfobj :=
  if h is c :: h' then
    match mf_call A k dA M c with
    | (Undef, _) | (NonFin, _) => None
    | (_, M') => mf_run A k dA M' h'
    end
  else Some M.
End MF.
Arguments MNone {F}.
Arguments MStr {F} _.
Arguments MOther {F}.
