(* MatrixFunction (/repo/src/primate/operators.py 36-151) with functions that return arrays of up
   to two dimensions, and with functions assigned to an existing object (property `fun`, 87-97).

   The native call, the buffers and the quadrature are those of ModelOperators.  Left out: results
   with three or more dimensions. *)
From Coq Require Import String.
From mathcomp Require Import all_ssreflect all_algebra.
From Verif Require Import Base ModelTyping ModelLanczos ModelTqli ModelQuadrature ModelSpecial ModelOperators ModelSLQ ModelOpApps.
Set Implicit Arguments.
Unset Strict Implicit.
Unset Printing Implicit Defensive.
Import Order.TTheory GRing.Theory Num.Theory.
Local Open Scope string_scope.
Local Open Scope ring_scope.

Section AF.
Variable F : rcfType.
Variables (eps : F) (fexp flog : F -> F) (feps : F).
Variable lap_vals : seq F -> seq F -> res (seq F).
Variable lap_pairs : seq F -> seq F -> res (seq F * seq (seq F)).

(* What a callable returns for a 1-d array: a scalar, a 1-d array or sequence, or a 2-d one, given by
   the length of its rows and the rows.  The flag says whether it is a numpy array. *)
Inductive ares : Type :=
| ASca of bool & xnum F | AVec of bool & seq (xnum F) | AMat of bool & nat & seq (seq (xnum F)).
Definition afun : Type := seq F -> ares.

(* np.atleast_2d: the length of the rows, the rows *)
Definition a_rows (r : ares) : nat * seq (seq (xnum F)) :=
  match r with
  | ASca _ x => (1%N, [:: [:: x]])
  | AVec _ v => (size v, [:: v])
  | AMat _ c rows => (c, rows)
  end.

(* a 2-d array times a 1-d one, with broadcasting; None: ValueError *)
Definition a_mul (a : nat * seq (seq (xnum F))) (w : seq (xnum F)) : option (nat * seq (seq (xnum F))) :=
  let k := size w in
  if [|| a.1 == k, a.1 == 1%N | k == 1%N] then
    Some (if a.1 == k then k else if a.1 == 1%N then k else a.1,
          [seq odflt [::] (np_mul r w) | r <- a.2])
  else None.

(* ---- the object --------------------------------------------------------------------- *)
(* its buffers and parameters, and its function (the field mf_fun of a_obj is not looked at) *)
Record amf : Type := AMF { a_obj : mfobj F; a_fun : afun }.

(* fun setter, 91-97; the argument is callable *)
Definition afun_check (n : nat) (g : afun) : res unit :=
  match g (nseq n 1) with
  | AMat true c _ => if c == n then Ok tt else Err AssertionError             (* 96 *)
  | AVec true v => if size v == n then Ok tt else Err AssertionError          (* 96 *)
  | ASca true _ => Err IndexError                                             (* 96: shape[-1] of () *)
  | _ => Err AssertionError                                                   (* 95 *)
  end.

(* M.fun = value; None: not callable (93).  The old function stays when a check fails. *)
Definition set_fun (M : amf) (value : option afun) : res unit * amf :=
  match value with
  | None => (Err AssertionError, M)
  | Some g => match afun_check (mf_n (a_obj M)) g with
              | Err e => (Err e, M)
              | Ok _ => (Ok tt, AMF (a_obj M) g)
              end
  end.

(* __init__ with a callable, 55-81 (None and the names of special.py: ModelOperators.mf_init) *)
Definition a_init (o : odesc) (g : afun) (deg orth : int) (d : dty) : res amf :=
  bind (mf_init fexp flog feps o (@MNone F) (no_kw F) deg orth d) (fun Mb =>
  bind (afun_check (mf_n Mb) g) (fun _ => Ok (AMF Mb g))).

(* ---- _matvec, 102-124 ------------------------------------------------------------------ *)
(* The columns of the returned two-dimensional array. *)
Definition a__matvec (n : nat) (A : 'M[F]_n) (k : okind) (dA : dty) (M : amf) (x : seq F)
  : outcome (seq (seq (xnum F))) * amf :=
  let Mb := zero_Q (a_obj M) in                                                 (* 116 *)
  let x_norm := Num.sqrt (sqnorm x) in                                         (* 118 *)
  match mf_lanczos eps A k dA Mb x with                                         (* 119 *)
  | Undef => (Undef, AMF Mb (a_fun M)) | NonFin => (NonFin, AMF Mb (a_fun M)) | Raise e => (Raise e, AMF Mb (a_fun M))
  | Ret Mb =>
      let d := mf_deg Mb in
      (match eigh_tridiag lap_vals lap_pairs (take d (mf_alpha Mb)) (drop 1 (take d (mf_beta Mb))) "auto" 30 with  (* 122 *)
       | Err e => Raise e
       | Ok ENonFinite => NonFin
       | Ok (EVals _) => Raise ValueError
       | Ok (EPairs rw Y) =>
           match a_mul (a_rows (a_fun M rw)) [seq Fin y | y <- nth [::] Y 0] with                                 (* 124 *)
           | Some (b, vs) =>
               if b == d then Ret [seq qyv n d x_norm (mf_Q Mb) Y v | v <- vs] else Raise ValueError
           | None => Raise ValueError
           end
       end, AMF Mb (a_fun M))
  end.

(* LinearOperator.matvec on a 1-d array: y.reshape(n) of the two-dimensional result *)
Definition a_matvec (n : nat) (A : 'M[F]_n) (k : okind) (dA : dty) (M : amf) (x : seq F)
  : outcome (seq (xnum F)) * amf :=
  if size x != mf_n (a_obj M) then (Raise ValueError, M)
  else let: (r, M') := a__matvec A k dA M x in
       (obnd r (fun cols => if cols is [:: c] then Ret c else Raise ValueError), M').

(* ---- quad, 126-151 ------------------------------------------------------------------------ *)
(* one column, 146-150: the sum over the last axis is stored in an entry of y, which is a ValueError
   unless it has one element *)
Definition a_quad1 (n : nat) (A : 'M[F]_n) (k : okind) (dA : dty) (M : amf) (x : seq F)
  : outcome (xnum F) * amf :=
  let x_norm_sq := Num.sqrt (sqnorm x) ^+ 2 in                                 (* 147 *)
  match mf_lanczos eps A k dA (a_obj M) x with                                 (* 148 *)
  | Undef => (Undef, M) | NonFin => (NonFin, M) | Raise e => (Raise e, M)
  | Ret Mb =>
      match quadrature lap_vals lap_pairs (mf_alpha Mb) (mf_beta Mb) (Some (mf_deg Mb)%:Z) "gw"
              (Some (mf_nodes Mb)) (Some (mf_weights Mb)) "auto" 30 with         (* 149 *)
      | Undef => (Undef, AMF Mb (a_fun M)) | NonFin => (NonFin, AMF Mb (a_fun M)) | Raise e => (Raise e, AMF Mb (a_fun M))
      | Ret r =>
          let ns := odflt (mf_nodes Mb) (q_nodes r) in
          let ws := odflt (mf_weights Mb) (q_weights r) in
          let Mb := MF (mf_n Mb) (mf_fun Mb) (mf_deg Mb) (mf_orth Mb) (mf_dt Mb) (mf_mv Mb)
                     (mf_alpha Mb) (mf_beta Mb) ns ws (mf_Q Mb) in
          (match a_mul (a_rows (a_fun M ns)) ws with                           (* 150 *)
           | Some (_, [:: v]) => Ret (xmul (xsum v) (Fin x_norm_sq))
           | _ => Raise ValueError
           end, AMF Mb (a_fun M))
      end
  end.

Fixpoint a_quad (n : nat) (A : 'M[F]_n) (k : okind) (dA : dty) (M : amf) (X : seq (seq F))
  : outcome (seq (xnum F)) * amf :=
  if X is x :: X' then
    let: (r, M1) := a_quad1 A k dA M x in
    match r with
    | Ret y => let: (r', M2) := a_quad A k dA M1 X' in (obnd r' (fun ys => Ret (y :: ys)), M2)
    | Undef => (Undef, M1) | NonFin => (NonFin, M1) | Raise e => (Raise e, M1)
    end
  else (Ret [::], M).

(* ---- matrix_function, 155-161, with a callable and a vector ------------------------------------ *)
(* the columns of the returned array: M._matvec is called directly *)
Definition a_matrix_function (n : nat) (A : 'M[F]_n) (k : okind) (dA : dty) (o : odesc) (g : afun)
    (v : seq F) (deg : int) : outcome (seq (seq (xnum F))) :=
  match a_init o g deg 3 F64 with
  | Err e => Raise e
  | Ok M => (a__matvec A k dA M v).1
  end.

(* ---- histories ------------------------------------------------------------------------------------ *)
Inductive acall : Type := AMatvec of seq F | AQuad of seq (seq F) | ASet of option afun.
Definition a_call (n : nat) (A : 'M[F]_n) (k : okind) (dA : dty) (M : amf) (c : acall)
  : outcome (seq (xnum F)) * amf :=
  match c with
  | AMatvec x => a_matvec A k dA M x
  | AQuad X => a_quad A k dA M X
  | ASet v => let: (r, M') := set_fun M v in (if r is Err e then Raise e else Ret [::], M')
  end.
(* None: a call had undefined behaviour or stored NaNs *)
Fixpoint a_run (n : nat) (A : 'M[F]_n) (k : okind) (dA : dty) (M : amf) (h : seq acall) : option amf :=
  if h is c :: h' then
    match a_call A k dA M c with
    | (Undef, _) | (NonFin, _) => None
    | (_, M') => a_run A k dA M' h'
    end
  else Some M.
End AF.

(* ---- as an operand of hutch and diag (as ModelOpApps.mf_linop) -------------------------------------- *)
Section Linop.
Variable F : rcfType.
Variable N : nat.
Variable eps : F.
Variable lap_vals : seq F -> seq F -> res (seq F).
Variable lap_pairs : seq F -> seq F -> res (seq F * seq (seq F)).
Variables (A : 'M[F]_N) (k : okind) (dA : dty).
Definition a_apply (M : amf F) (v : 'cV[F]_N) : outcome ('cV[F]_N * amf F) :=
  let: (r, M') := a_matvec eps lap_vals lap_pairs A k dA M (colseq v) in
  obnd r (fun ys => if finites ys is Some y then Ret (\col_i y`_i, M') else NonFin).
Definition a_form (M : amf F) (v : 'cV[F]_N) : outcome (F * amf F) :=
  let: (r, M') := a_quad eps lap_vals lap_pairs A k dA M [:: colseq v] in
  obnd r (fun ys => if finites ys is Some [:: y] then Ret (y, M') else NonFin).
Definition a_linop : linop F N (amf F) := LinOp a_apply a_apply (Some a_form).
End Linop.
