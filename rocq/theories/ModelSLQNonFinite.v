(* Stochastic Lanczos quadrature with samples that are infinite or NaN: hutch
   (/repo/src/primate/trace.py 34-116) given a MatrixFunction object
   (/repo/src/primate/operators.py 33-151) whose quad method, used in place of v^T A v
   (trace.py 97), may return any extended number.  ModelSLQ ends at the first such sample
   (NonFin); here the estimator of ModelNonFinite goes on with it.  The criteria are those of
   ModelNonFinite (bcrit). *)
From Coq Require Import String.
From mathcomp Require Import all_ssreflect all_algebra.
From Verif Require Import Base ModelStats ModelEstimators ModelTyping ModelRandom ModelTrace
  ModelLanczos ModelTqli ModelQuadrature ModelSpecial ModelOperators ModelSLQ ModelNonFinite.
Set Implicit Arguments.
Unset Strict Implicit.
Unset Printing Implicit Defensive.
Import Order.TTheory GRing.Theory Num.Theory.
Local Open Scope ring_scope.

Section XSLQ.
Variable F : rcfType.
Variable G : Type.
Variable tppf : F -> nat -> F.
Variable zq : F -> F.
Variable eps : F.
Variable lap_vals : seq F -> seq F -> res (seq F).
Variable lap_pairs : seq F -> seq F -> res (seq F * seq (seq F)).
Variable N : nat.
Variables (A : 'M[F]_N) (k : okind) (dA : dty).

(* estimator, generator, probes so far, and the MatrixFunction object with its buffers *)
Record xsstate : Type := XS { xs_est : xest F; xs_gen : G; xs_probes : seq 'cV[F]_N; xs_obj : mfobj F }.

(* loop body, trace.py 108-110 / 115, with quad_form = A.quad (97) *)
Definition xslq_body (sample : sampler F G N) (b : int) (s : xsstate) : outcome xsstate :=
  if b < 0 then Raise ValueError
  else
    let: (vs, g') := sample `|b|%N (xs_gen s) in
    let: (r, M') := mf_quad eps lap_vals lap_pairs A k dA (xs_obj s) [seq colseq v | v <- vs] in
    match r with
    | Undef => Undef | NonFin => NonFin | Raise e => Raise e
    | Ret ys =>
        match xest_update (xs_est s) (Arr1 ys) with
        | (_, Some e) => Raise e
        | (est', None) => Ret (XS est' g' (xs_probes s ++ vs) M')
        end
    end.

(* while not converge(estimator): trace.py 107 / 114 *)
Fixpoint xslq_loop (fuel : nat) (c : bcrit F) (body : xsstate -> outcome xsstate) (s : xsstate) : option (outcome xsstate) :=
  match fuel with
  | 0%N => None
  | f.+1 =>
      match xcrit_call tppf zq c (xs_est s) with
      | Err e => Some (Raise e)
      | Ok true => Some (Ret s)
      | Ok false => match body s with
                    | Ret s' => xslq_loop f c body s'
                    | Undef => Some Undef | NonFin => Some NonFin | Raise e => Some (Raise e)
                    end
      end
  end.

(* hutch(M, batch, pdf, converge, ...) for a MatrixFunction M, trace.py 81-116: the number returned, the probes,
   and the object as it is afterwards; `many` says that full or a callback is given *)
Definition xslq (fuel : nat) (M : mfobj F) (batch : int) (sample : sampler F G N) (c : bcrit F)
    (record many : bool) (g : G) : option (outcome (xnum F * seq 'cV[F]_N * mfobj F)) :=
  if N == 0%N then Some (Ret (Fin 0, [::], M))
  else
    omap (fun r => obnd r (fun s => Ret (head NaN (xest_estimate (xs_est s)), xs_probes s, xs_obj s)))
      (xslq_loop fuel c (xslq_body sample (if many then batch else 1)) (XS (xest_init F 1 true record) g [::] M)).
End XSLQ.
