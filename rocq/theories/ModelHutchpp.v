(* Model of hutchpp (/repo/src/primate/trace.py 119-182) and update_trinv
   (/repo/src/primate/linalg.py 5-24). *)
From Coq Require Import String.
From mathcomp Require Import all_ssreflect all_algebra.
From Verif Require Import Base ModelTyping ModelRandom ModelTrace.
Set Implicit Arguments.
Unset Strict Implicit.
Unset Printing Implicit Defensive.
Import Order.TTheory GRing.Theory Num.Theory.
Local Open Scope ring_scope.

Section Hpp.
Variable F : rcfType.
Variable G : Type.
Variable unif : G -> rat * G.
Variable gauss : G -> F * G.
Variable N : nat.
(* np.linalg.qr(Y, mode="reduced")[0] for an N x k matrix Y *)
Variable qrQ : forall k, 'M[F]_(N, k) -> 'M[F]_(N, minn N k).

(* the array returned by a sampler, as a matrix *)
Definition mat_of_cols (k : nat) (cs : seq 'cV[F]_N) : 'M[F]_(N, k) :=
  \matrix_(i, j) (nth 0 cs j) i 0.

(* np.einsum("...i,...i->...", X, Y) on two N x k arrays: the last axis is
   summed, which leaves one number per row *)
Definition einsum_rows (k : nat) (X Y : 'M[F]_(N, k)) : seq F :=
  [seq \sum_j X i j * Y i j | i <- enum 'I_N].

(* lines 151-152; % 3 is never negative in Python, as for modz *)
Definition hpp_nb (m : option int) : int :=
  let nb := if m is Some x then x else (N %/ 3)%N%:Z in
  nb + (nb %% 3)%Z.

(* EstimatorResult as far as hutchpp fills it (178-181); `samples` does not
   exist on a fresh EstimatorResult *)
Record hresult : Type := HResult { hr_estimate : F; hr_nit : int; hr_samples : option (seq F) }.
Inductive hret : Type := HScalar of F | HPair of F & hresult.

(* lines 147-182 for a resolved sampler *)
Definition hutchpp_run (A : oper F N) (m : option int) (mode : string) (sample : sampler F G N)
    (full : bool) (g : G) : res hret :=
  if N == 0%N then Ok (if full then HPair 0 (HResult 0 0 None) else HScalar 0)
  else
    let nb := hpp_nb m in
    if nb < 0 then Err ValueError            (* np.empty with a negative size, 157 *)
    else
      let k := `|nb|%N in
      let: (ws, g1) := sample k g in
      let Q := qrQ (op_mat A *m mat_of_cols k ws) in
      let rng_ests := if (mode =? "full")%string then einsum_rows (op_mat A *m Q) Q
                      else [seq quad_form A (col j Q) | j <- enum 'I_(minn N k)] in
      let tr_rng := \sum_(x <- rng_ests) x in
      let: (gs, g2) := sample k g1 in
      let W := mat_of_cols k gs in
      let W' := W - Q *m (Q^T *m W) in
      let defl_ests := einsum_rows (op_mat A *m W') W' in
      if k == 0%N then Err ZeroDivisionError   (* 1 / nb, 173 *)
      else
        let tr_defl := 1 / k%:R * \sum_(x <- defl_ests) x in
        Ok (if full then HPair (tr_rng + tr_defl) (HResult (tr_rng + tr_defl) (2 * nb) (Some (rng_ests ++ defl_ests)))
            else HScalar (tr_rng + tr_defl)).

(* lines 138-140: the distribution is resolved before anything else
   (is_valid_operator is modelled separately) *)
Definition hutchpp (A : oper F N) (m : option int) (mode : string) (p : pdfarg F G)
    (full : bool) (g : G) : res hret :=
  bind (isotropic unif gauss p) (fun f => hutchpp_run A m mode (mk_sampler N f) full g).
End Hpp.

Section Trinv.
Variable F : rcfType.

(* linalg.py 20-24 on an n x n array and a column of length n + 1: zeros, then
   three block assignments.  np.reciprocal(0.) is inf in the code, 0 here
   (theorems assume a non-zero last entry). *)
Definition trinv_step (n : nat) (B_inv : 'M[F]_n) (b : 'cV[F]_(n + 1)) : 'M[F]_(n + 1) :=
  let r := (b (rshift n 0) 0)^-1 in
  block_mx B_inv (r *: (- B_inv *m usubmx b)) 0 r%:M.

(* linalg.py 15-17: the shape assertion (the dtype assertion, 18, is not
   modelled) *)
Definition update_trinv (n m l : nat) (B_inv : 'M[F]_(n, m)) (b : 'cV[F]_l) : res 'M[F]_(n + 1) :=
  match @eqP _ m n, @eqP _ l (n + 1)%N with
  | ReflectT em, ReflectT el => Ok (trinv_step (castmx (erefl, em) B_inv) (castmx (el, erefl) b))
  | _, _ => Err AssertionError
  end.
End Trinv.
