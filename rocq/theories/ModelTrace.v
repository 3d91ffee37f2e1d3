(* Model of hutch (/repo/src/primate/trace.py 34-116) and diag
   (/repo/src/primate/diagonal.py 11-92). *)
From Coq Require Import String.
From mathcomp Require Import all_ssreflect all_algebra.
From Verif Require Import Base ModelStats ModelEstimators ModelTyping ModelRandom.
Set Implicit Arguments.
Unset Strict Implicit.
Unset Printing Implicit Defensive.
Import Order.TTheory GRing.Theory Num.Theory.
Local Open Scope ring_scope.

Section Drivers.
Variable F : rcfType.
Variable G : Type.
Variable unif : G -> rat * G.
Variable gauss : G -> F * G.
Variable tppf : F -> nat -> F.
Variable zq : F -> F.
Local Notation xn := (xnum F).

Section Size.
Variable N : nat.

(* The operator A: what A @ v computes, and A.quad if that attribute exists.
   (is_valid_operator is modelled separately; the operator has been accepted.
   astype(f_dtype) is the identity in exact arithmetic.) *)
Record oper : Type := Oper { op_mat : 'M[F]_N; op_quad : option ('cV[F]_N -> F) }.

(* trace.py 97: np.einsum("...i,...i->...", v.T, (A @ v).T), one column *)
Definition quad_form (A : oper) (v : 'cV[F]_N) : F :=
  if op_quad A is Some q then q v else \sum_i v i 0 * (op_mat A *m v) i 0.

Definition sampler : Type := nat -> G -> seq 'cV[F]_N * G.

Definition to_cols (cs : seq (seq F)) : seq 'cV[F]_N := [seq \col_i c`_i | c <- cs].

Definition mk_sampler (f : nat -> nat -> G -> seq (seq F) * G) : sampler :=
  fun k g => let: (cs, g') := f N k g in (to_cols cs, g').

(* trace.py 87: a string is resolved by isotropic, a callable is used as is *)
Definition hutch_pdf (p : pdfarg F G) : res sampler :=
  match p with
  | PName _ => bind (isotropic unif gauss p) (fun f => Ok (mk_sampler f))
  | PCall f => Ok (mk_sampler f)
  end.

(* estimators.py 79-88 (message and info are not modelled) *)
Record eresult (E : Type) : Type := EResult { er_estimator : option E; er_estimate : pyval F; er_nit : nat }.

(* Loop state.  `lo_seen` lists what each callback(result) call could observe;
   `lo_probes` lists the vectors drawn so far (an observation of the run, not
   read by the loop). *)
Record lstate : Type := LState {
  lo_est : mest F; lo_gen : G;
  lo_seen : seq (eresult (mest F)); lo_probes : seq 'cV[F]_N
}.

Definition loop_test (c : crit F) (st : lstate) : res bool :=
  crit_call tppf zq c (mest_view (lo_est st)).

(* loop body, trace.py 108-110 / 115 *)
Definition hutch_body (A : oper) (sample : sampler) (b : int) (notify : bool) (st : lstate) : res lstate :=
  if b < 0 then Err ValueError    (* np.empty with a negative size *)
  else
    let: (vs, g') := sample `|b|%N (lo_gen st) in
    match mest_update (lo_est st) (Arr1 [seq quad_form A v | v <- vs]) with
    | (_, Some e) => Err e
    | (est', None) =>
        Ok (LState est' g'
             (if notify then rcons (lo_seen st) (EResult (Some est') (PFloat (Fin 0)) 0) else lo_seen st)
             (lo_probes st ++ vs))
    end.

(* what is returned: a number, or a pair; and the observations *)
Inductive tret : Type :=
  | TScalar of pyval F
  | TPair of pyval F & eresult (mest F).
Record run : Type := Run { run_ret : tret; run_seen : seq (eresult (mest F)); run_probes : seq 'cV[F]_N; run_gen : G }.

(* trace.py 88-116 for a resolved criterion and sampler.  A callback of None
   together with full=True is replaced by the identity (106), which observes
   nothing. *)
Definition hutch (fuel : nat) (A : oper) (batch : int) (sample : sampler) (c : crit F)
    (record full callback : bool) (g : G) : option (res run) :=
  let est := mest_init F 1 true record in
  let st0 := LState est g [::] [::] in
  if N == 0%N then
    Some (Ok (Run (if full then TPair (PFloat (Fin 0)) (EResult (Some est) (PFloat (Fin 0)) 0)
                   else TScalar (PFloat (Fin 0))) [::] [::] g))
  else if full || callback then
    match while_not fuel (loop_test c) (hutch_body A sample batch callback) st0 with
    | None => None
    | Some (Err e) => Some (Err e)
    | Some (Ok st) =>
        Some (Ok (Run (TPair (mest_estimate (lo_est st)) (EResult (Some (lo_est st)) (PFloat (Fin 0)) 0))
                      (lo_seen st) (lo_probes st) (lo_gen st)))
    end
  else
    match while_not fuel (loop_test c) (hutch_body A sample 1 false) st0 with
    | None => None
    | Some (Err e) => Some (Err e)
    | Some (Ok st) => Some (Ok (Run (TScalar (mest_estimate (lo_est st))) (lo_seen st) (lo_probes st) (lo_gen st)))
    end.

(* trace.py 89-94: resolution of `converge`.  `kwargs` no longer contains
   "record" (popped in 88). *)
Definition hutch_criterion (c : carg F) (kw : kwargs (pyarg F)) : res (crit F) :=
  match c with
  | CName s => if (s =? "default")%string then Ok (default_crit F)
               else bind (convergence_criterion c kw) (fun r =>
                      match r with
                      | RGiven x => Ok x
                      | RBuilt o => if crit_of o is Some x then Ok x else Err TypeError
                      end)
  | _ => bind (convergence_criterion c kw) (fun r =>
           match r with
           | RGiven x => Ok x
           | RBuilt o => if crit_of o is Some x then Ok x else Err TypeError
           end)
  end.

(* ---- diag, diagonal.py 11-92 -------------------------------------------- *)
Record dstate : Type := DState {
  ds_est : mest F; ds_gen : G; ds_numer : 'cV[F]_N; ds_denom : 'cV[F]_N;
  ds_seen : seq (eresult (mest F)); ds_probes : seq 'cV[F]_N
}.

(* numer / denom; a zero denominator gives NaN/inf in the code, 0 here
   (theorems about diag assume non-zero denominators) *)
Definition vdiv (a b : 'cV[F]_N) : seq F := [seq a i 0 / b i 0 | i <- enum 'I_N].

Definition diag_test (c : crit F) (st : dstate) : res bool :=
  crit_call tppf zq c (mest_view (ds_est st)).

(* lines 75-81 / 87-91; pdf(size=N) draws one column *)
Definition diag_body (A : 'M[F]_N) (sample : sampler) (notify : bool) (st : dstate) : res dstate :=
  let: (vs, g') := sample 1%N (ds_gen st) in
  let v := head 0 vs in
  let u := A *m v in
  let numer := ds_numer st + \col_i (u i 0 * v i 0) in
  let denom := ds_denom st + \col_i (v i 0 ^+ 2) in
  match mest_update (ds_est st) (Arr2 N [:: vdiv numer denom]) with
  | (_, Some e) => Err e
  | (est', None) =>
      Ok (DState est' g' numer denom
           (if notify then rcons (ds_seen st) (EResult (Some est') (PFloat (Fin 0)) 0) else ds_seen st)
           (rcons (ds_probes st) v))
  end.

Definition diag (fuel : nat) (A : 'M[F]_N) (sample : sampler) (c : crit F)
    (full callback record : bool) (g : G) : option (res run) :=
  let est := mest_init F N false record in
  let st0 := DState est g 0 0 [::] [::] in
  if N == 0%N then
    Some (Ok (Run (if full then TPair (PFloat (Fin 0)) (EResult None (PFloat (Fin 0)) 0)
                   else TScalar (PFloat (Fin 0))) [::] [::] g))
  else
    match while_not fuel (diag_test c) (diag_body A sample callback) st0 with
    | None => None
    | Some (Err e) => Some (Err e)
    | Some (Ok st) =>
        let m := mest_estimate (ds_est st) in
        Some (Ok (Run (if full || callback then TPair m (EResult (Some (ds_est st)) m 0) else TScalar m)
                      (ds_seen st) (ds_probes st) (ds_gen st)))
    end.

(* diagonal.py 61: only names are accepted *)
Definition diag_pdf (p : pdfarg F G) : res sampler :=
  bind (isotropic unif gauss p) (fun f => Ok (mk_sampler f)).
End Size.
End Drivers.
