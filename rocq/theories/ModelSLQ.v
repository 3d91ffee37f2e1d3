(* Stochastic Lanczos quadrature: hutch (/repo/src/primate/trace.py 34-116) given a
   MatrixFunction object (/repo/src/primate/operators.py 33-151), whose quad method is used
   in place of v^T A v (trace.py 97) and which keeps its Lanczos buffers from one probe to
   the next.  A sample that is infinite or NaN ends the model (NonFin): MeanEstimator is
   modelled for finite samples. *)
From Coq Require Import String.
From mathcomp Require Import all_ssreflect all_algebra.
From Verif Require Import Base ModelStats ModelEstimators ModelTyping ModelRandom ModelTrace
  ModelLanczos ModelTqli ModelQuadrature ModelSpecial ModelOperators.
Set Implicit Arguments.
Unset Strict Implicit.
Unset Printing Implicit Defensive.
Import Order.TTheory GRing.Theory Num.Theory.
Local Open Scope ring_scope.

Section SLQ.
Variable F : rcfType.
Variable G : Type.
Variable tppf : F -> nat -> F.
Variable zq : F -> F.
Variable eps : F.
Variable lap_vals : seq F -> seq F -> res (seq F).
Variable lap_pairs : seq F -> seq F -> res (seq F * seq (seq F)).
Variable N : nat.
Variables (A : 'M[F]_N) (k : okind) (dA : dty).

(* the state of the loop, and the object the samples are computed with *)
Record sstate : Type := SState { ss_loop : lstate F G N; ss_obj : mfobj F }.

(* a column of v as an array *)
Definition colseq (v : 'cV[F]_N) : seq F := [seq v i 0 | i <- enum 'I_N].

Fixpoint finites (ys : seq (xnum F)) : option (seq F) :=
  match ys with
  | [::] => Some [::]
  | Fin y :: ys' => omap (cons y) (finites ys')
  | _ => None
  end.

(* loop body, trace.py 108-110 / 115, with quad_form = A.quad (97) *)
Definition slq_body (sample : sampler F G N) (b : int) (notify : bool) (s : sstate) : outcome sstate :=
  let st := ss_loop s in
  if b < 0 then Raise ValueError
  else
    let: (vs, g') := sample `|b|%N (lo_gen st) in
    let: (r, M') := mf_quad eps lap_vals lap_pairs A k dA (ss_obj s) [seq colseq v | v <- vs] in
    match r with
    | Undef => Undef | NonFin => NonFin | Raise e => Raise e
    | Ret ys =>
        match finites ys with
        | None => NonFin
        | Some qs =>
            match mest_update (lo_est st) (Arr1 qs) with
            | (_, Some e) => Raise e
            | (est', None) =>
                Ret (SState (LState est' g'
                       (if notify then rcons (lo_seen st) (EResult (Some est') (PFloat (Fin 0)) 0) else lo_seen st)
                       (lo_probes st ++ vs)) M')
            end
        end
    end.

(* while not converge(estimator): trace.py 107 / 114 *)
Fixpoint slq_loop (fuel : nat) (c : crit F) (body : sstate -> outcome sstate) (s : sstate) : option (outcome sstate) :=
  match fuel with
  | 0%N => None
  | f.+1 =>
      match loop_test tppf zq c (ss_loop s) with
      | Err e => Some (Raise e)
      | Ok true => Some (Ret s)
      | Ok false => match body s with
                    | Ret s' => slq_loop f c body s'
                    | Undef => Some Undef | NonFin => Some NonFin | Raise e => Some (Raise e)
                    end
      end
  end.

(* hutch(M, batch, pdf, converge, full=..., callback=...) for a MatrixFunction M, trace.py 81-116;
   the object as it is afterwards is returned too *)
Definition slq (fuel : nat) (M : mfobj F) (batch : int) (sample : sampler F G N) (c : crit F)
    (record full callback : bool) (g : G) : option (outcome (run F G N * mfobj F)) :=
  let est := mest_init F 1 true record in
  let s0 := SState (LState est g [::] [::]) M in
  if N == 0%N then
    Some (Ret (Run (if full then TPair (PFloat (Fin 0)) (EResult (Some est) (PFloat (Fin 0)) 0)
                    else TScalar (PFloat (Fin 0))) [::] [::] g, M))
  else if full || callback then
    match slq_loop fuel c (slq_body sample batch callback) s0 with
    | None => None
    | Some Undef => Some Undef | Some NonFin => Some NonFin | Some (Raise e) => Some (Raise e)
    | Some (Ret s) =>
        let st := ss_loop s in
        Some (Ret (Run (TPair (mest_estimate (lo_est st)) (EResult (Some (lo_est st)) (PFloat (Fin 0)) 0))
                      (lo_seen st) (lo_probes st) (lo_gen st), ss_obj s))
    end
  else
    match slq_loop fuel c (slq_body sample 1 false) s0 with
    | None => None
    | Some Undef => Some Undef | Some NonFin => Some NonFin | Some (Raise e) => Some (Raise e)
    | Some (Ret s) =>
        let st := ss_loop s in
        Some (Ret (Run (TScalar (mest_estimate (lo_est st))) (lo_seen st) (lo_probes st) (lo_gen st), ss_obj s))
    end.
End SLQ.
