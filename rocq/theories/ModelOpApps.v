(* The estimators of /repo/src/primate/trace.py and diagonal.py given a scipy LinearOperator
   object instead of an array: every product A @ X is a sequence of calls of the object's
   matvec, which may change the object and may raise.

   scipy (LinearOperator, not part of the repository): A @ x for a vector or a single column
   calls matvec; for a matrix it is np.hstack([matvec(col) for col in X.T]), which is a
   ValueError for a matrix without columns; A.T @ X calls rmatvec column by column, which
   is the matvec of A.H if the class defines _adjoint (MatrixFunction: itself, operators.py
   99-100) and NotImplementedError if it does not (Toeplitz).

   An attribute `quad` returns one number per column in a 1-d array, also for a 1-d argument
   (as MatrixFunction.quad does, operators.py 126-151).  A product that is infinite or NaN
   ends the model (NonFin).  The object is not looked at after an exception. *)
From Coq Require Import String.
From mathcomp Require Import all_ssreflect all_algebra.
From mathcomp Require Import complex.
From Verif Require Import Base ModelStats ModelEstimators ModelTyping ModelRandom ModelTrace ModelHutchpp ModelXtrace
  ModelLanczos ModelTqli ModelQuadrature ModelSpecial ModelOperators ModelSLQ ModelToeplitz.
Set Implicit Arguments.
Unset Strict Implicit.
Unset Printing Implicit Defensive.
Import Order.TTheory GRing.Theory Num.Theory.
Local Open Scope ring_scope.

Section Apps.
Variable F : rcfType.
Variable G : Type.
Variable unif : G -> rat * G.
Variable gauss : G -> F * G.
Variable tppf : F -> nat -> F.
Variable zq : F -> F.
Variable N : nat.
Variable S : Type.

(* the object: its methods as steps of its state *)
Record linop : Type := LinOp {
  l_mv : S -> 'cV[F]_N -> outcome ('cV[F]_N * S);           (* matvec *)
  l_rmv : S -> 'cV[F]_N -> outcome ('cV[F]_N * S);          (* rmatvec *)
  l_quad : option (S -> 'cV[F]_N -> outcome (F * S))        (* quad, one column, if it exists *)
}.

(* one call per column, in order *)
Fixpoint each (T : Type) (f : S -> 'cV[F]_N -> outcome (T * S)) (s : S) (vs : seq 'cV[F]_N) : outcome (seq T * S) :=
  if vs is v :: vs' then
    obnd (f s v) (fun us => obnd (each f us.2 vs') (fun rs => Ret (us.1 :: rs.1, rs.2)))
  else Ret ([::], s).

(* A @ X, A.T @ X for a matrix with k columns *)
Definition matmat (f : S -> 'cV[F]_N -> outcome ('cV[F]_N * S)) (s : S) (k : nat) (X : 'M[F]_(N, k))
  : outcome ('M[F]_(N, k) * S) :=
  if k == 0%N then Raise ValueError
  else obnd (each f s [seq col j X | j <- enum 'I_k]) (fun us => Ret (mat_of_cols k us.1, us.2)).

(* `while not test: body` *)
Fixpoint oloop (T : Type) (fuel : nat) (test : T -> res bool) (body : T -> outcome T) (st : T) : option (outcome T) :=
  match fuel with
  | 0%N => None
  | f.+1 => match test st with
            | Err e => Some (Raise e)
            | Ok true => Some (Ret st)
            | Ok false => match body st with
                          | Ret st' => oloop f test body st'
                          | Undef => Some Undef | NonFin => Some NonFin | Raise e => Some (Raise e)
                          end
            end
  end.

Variable A : linop.

(* np.einsum("...i,...i->...", v.T, (A @ v).T), trace.py 97 and 143: one number per column *)
Definition dots (vs us : seq 'cV[F]_N) : seq F :=
  [seq \sum_i (p : 'cV[F]_N * 'cV[F]_N).1 i 0 * p.2 i 0 | p <- zip vs us].

(* ---- hutch, trace.py 97-116 ------------------------------------------------------- *)
(* quad_form(v) for the k columns of v: A.quad(v), or the products of v with A @ v *)
Definition forms (s : S) (k : nat) (vs : seq 'cV[F]_N) : outcome (seq F * S) :=
  if l_quad A is Some q then each q s vs
  else if k == 0%N then Raise ValueError
  else obnd (each (l_mv A) s vs) (fun us =>
         Ret (dots vs us.1, us.2)).

Definition ohutch_body (sample : sampler F G N) (b : int) (notify : bool) (x : lstate F G N * S)
  : outcome (lstate F G N * S) :=
  let: (st, s) := x in
  if b < 0 then Raise ValueError
  else
    let: (vs, g') := sample `|b|%N (lo_gen st) in
    obnd (forms s `|b|%N vs) (fun qs =>
    match mest_update (lo_est st) (Arr1 qs.1) with
    | (_, Some e) => Raise e
    | (est', None) =>
        Ret (LState est' g'
             (if notify then rcons (lo_seen st) (EResult (Some est') (PFloat (Fin 0)) 0) else lo_seen st)
             (lo_probes st ++ vs), qs.2)
    end).

Definition ohutch (fuel : nat) (s : S) (batch : int) (sample : sampler F G N) (c : crit F)
    (record full callback : bool) (g : G) : option (outcome (run F G N * S)) :=
  let est := mest_init F 1 true record in
  let st0 := (LState est g [::] [::], s) in
  let test (x : lstate F G N * S) := loop_test tppf zq c x.1 in
  if N == 0%N then
    Some (Ret (Run (if full then TPair (PFloat (Fin 0)) (EResult (Some est) (PFloat (Fin 0)) 0)
                    else TScalar (PFloat (Fin 0))) [::] [::] g, s))
  else
    omap (fun o => obnd o (fun x => let: (st, s') := x in
        let v := mest_estimate (lo_est st) in
        Ret (Run (if full || callback then TPair v (EResult (Some (lo_est st)) (PFloat (Fin 0)) 0) else TScalar v)
                 (lo_seen st) (lo_probes st) (lo_gen st), s')))
      (oloop fuel test
        (if full || callback then ohutch_body sample batch callback else ohutch_body sample 1 false) st0).

(* ---- diag, diagonal.py 55-92 -------------------------------------------------------- *)
Definition odiag_body (sample : sampler F G N) (notify : bool) (x : dstate F G N * S) : outcome (dstate F G N * S) :=
  let: (st, s) := x in
  let: (vs, g') := sample 1%N (ds_gen st) in
  let v := head 0 vs in
  obnd (l_mv A s v) (fun us =>
  let numer := ds_numer st + \col_i (us.1 i 0 * v i 0) in
  let denom := ds_denom st + \col_i (v i 0 ^+ 2) in
  match mest_update (ds_est st) (Arr2 N [:: vdiv numer denom]) with
  | (_, Some e) => Raise e
  | (est', None) =>
      Ret (DState est' g' numer denom
           (if notify then rcons (ds_seen st) (EResult (Some est') (PFloat (Fin 0)) 0) else ds_seen st)
           (rcons (ds_probes st) v), us.2)
  end).

Definition odiag (fuel : nat) (s : S) (sample : sampler F G N) (c : crit F)
    (full callback record : bool) (g : G) : option (outcome (run F G N * S)) :=
  let est := mest_init F N false record in
  let st0 := (DState est g 0 0 [::] [::], s) in
  if N == 0%N then
    Some (Ret (Run (if full then TPair (PFloat (Fin 0)) (EResult None (PFloat (Fin 0)) 0)
                    else TScalar (PFloat (Fin 0))) [::] [::] g, s))
  else
    omap (fun o => obnd o (fun x => let: (st, s') := x in
        let m := mest_estimate (ds_est st) in
        Ret (Run (if full || callback then TPair m (EResult (Some (ds_est st)) m 0) else TScalar m)
                 (ds_seen st) (ds_probes st) (ds_gen st), s')))
      (oloop fuel (fun x => diag_test tppf zq c x.1) (odiag_body sample callback) st0).

(* ---- hutchpp, trace.py 138-182 ------------------------------------------------------- *)
Variable qrQ : forall k, 'M[F]_(N, k) -> 'M[F]_(N, minn N k).

(* With mode "reduced" the numbers quad_form(q) of an object with `quad` are arrays of
   length one: rng_ests is 2-d, its sum is the same, and np.concatenate([rng_ests, defl_ests])
   with the 1-d defl_ests (181) is a ValueError. *)
Definition ohutchpp (s : S) (m : option int) (mode : string) (sample : sampler F G N)
    (full : bool) (g : G) : outcome (hret F * S) :=
  if N == 0%N then Ret (if full then HPair 0 (HResult 0 0 None) else HScalar 0, s)
  else
    let nb := hpp_nb N m in
    if nb < 0 then Raise ValueError
    else
      let k := `|nb|%N in
      let full_mode := (mode =? "full")%string in
      let: (ws, g1) := sample k g in
      obnd (matmat (l_mv A) s (mat_of_cols k ws)) (fun y =>
      let Q := qrQ y.1 in
      let cs := [seq col j Q | j <- enum 'I_(minn N k)] in
      obnd (if full_mode then obnd (matmat (l_mv A) y.2 Q) (fun z => Ret (einsum_rows z.1 Q, z.2))
            else if l_quad A is Some q then each q y.2 cs
            else obnd (each (l_mv A) y.2 cs) (fun us => Ret (dots cs us.1, us.2)))
      (fun r =>
      let tr_rng := \sum_(x <- r.1) x in
      let: (gs, g2) := sample k g1 in
      let W := mat_of_cols k gs in
      let W' := W - Q *m (Q^T *m W) in
      obnd (matmat (l_mv A) r.2 W') (fun z =>
      let defl_ests := einsum_rows z.1 W' in
      let tr_defl := 1 / k%:R * \sum_(x <- defl_ests) x in
      if full then
        if ~~ full_mode && isSome (l_quad A) then Raise ValueError
        else Ret (HPair (tr_rng + tr_defl) (HResult (tr_rng + tr_defl) (2 * nb) (Some (r.1 ++ defl_ests))), z.2)
      else Ret (HScalar (tr_rng + tr_defl), z.2)))).

(* ---- xtrace, trace.py 264-315 --------------------------------------------------------- *)
Variable qr_insert : forall k, 'M[F]_(N, k) -> 'M[F]_k -> 'cV[F]_N -> 'M[F]_(N, k + 1) * 'M[F]_(k + 1).

Definition oxtrace_body (batch : int) (sample : sampler F G N) (record notify : bool) (x : xstate F G N * S)
  : outcome (xstate F G N * S) :=
  let: (st, s) := x in
  let ns := minn (N - nd_c (xs_W st)) `|batch|%N in
  let: (vs, g') := sample ns (xs_gen st) in
  let M := mat_of_cols ns vs in
  obnd (matmat (l_mv A) s M) (fun y =>
  match insert_cols qr_insert [seq col j y.1 | j <- enum 'I_ns] (xs_fac st) with
  | Err e => Raise e
  | Ok (q, r, ri) =>
    let W := hstack (xs_W st) (of_mx M) in
    let Ql := last_cols ns q in
    obnd (matmat (l_mv A) y.2 (to_mx N (nd_c Ql) Ql)) (fun z =>
    let Z := hstack (xs_Z st) (of_mx z.1) in
    let m := nd_c W in
    let t := xtrace_helper (to_mx N m W) (to_mx N m Z) (to_mx N m q) (to_mx m m r) (to_mx m m ri) VFun in
    match mest_update (mest_init F 1 false record) (Arr1 [seq t i 0 | i <- enum 'I_m]) with
    | (_, Some e) => Raise e
    | (est', None) =>
        Ret (XState W Z (q, r, ri) est' g'
              (if notify then rcons (xs_seen st) (EResult None (PFloat (Fin 0)) 0) else xs_seen st)
              (xs_probes st ++ vs), z.2)
    end)
  end).

Definition oxtrace (fuel : nat) (s : S) (batch : int) (p : pdfarg F G) (c : carg F) (kw : kwargs (pyarg F))
    (record full callback : bool) (g : G) : option (outcome (run F G N * S)) :=
  if ~~ (1 <= batch) then Some (Raise AssertionError)
  else match xtrace_criterion N c kw with
  | Err e => Some (Raise e)
  | Ok cr =>
    match hutch_pdf unif gauss N p with
    | Err e => Some (Raise e)
    | Ok sample =>
      omap (fun o => obnd o (fun x => let: (st, s') := x in
          let v := mest_estimate (xs_est st) in
          Ret (Run (if full then TPair v (EResult (Some (xs_est st)) v 0) else TScalar v)
                   (xs_seen st) (xs_probes st) (xs_gen st), s')))
        (oloop fuel (fun x => xtrace_test tppf zq cr x.1) (oxtrace_body batch sample record callback)
          (xtrace_init F N record g, s))
    end
  end.

(* ---- xdiag, diagonal.py 99-138 ----------------------------------------------------------- *)
Variable qr : forall k, 'M[F]_(N, k) -> 'M[F]_(N, k) * 'M[F]_k.

(* A @ N (115) and A.T @ Q (122); the rest as in ModelXtrace.xdiag_run *)
Definition oxdiag (s : S) (m : option int) (sample : sampler F G N) (g : G) : outcome (xdrun F N * S) :=
  let mm := xdiag_m N m in
  if mm < 0 then Raise ValueError
  else
    let k := `|mm|%N in
    let: (vs, g') := sample k g in
    let M := mat_of_cols k vs in
    obnd (matmat (l_mv A) s M) (fun y =>
    let Y := y.1 in
    let: (Q, R) := qr Y in
    let dNY := diag_prod M^T Y^T in
    obnd (matmat (l_rmv A) y.2 Q) (fun z =>
    let Z := z.1 in
    let T := Z^T *m M in
    if R \notin unitmx then Raise LinAlgError
    else
      let S := sphericalS (invmx R) in
      let QS := Q *m S in
      let dQZ := diag_prod Q^T Z^T in
      let dQSSZ := diag_prod QS^T (Z *m S)^T in
      let dNTQ := diag_prod M^T (Q *m T)^T in
      let dST := diag_prod S T in
      let dNQSST := diag_prod M^T (\matrix_(j, i) (dST j 0 * (QS^T) j i)) in
      Ret (XdRun [seq Fin (dQZ i 0 + (- dQSSZ i 0 + dNY i 0 - dNTQ i 0 + dNQSST i 0) / k%:R) | i <- enum 'I_N] vs, z.2))).
End Apps.

(* ---- the two operator classes of operators.py ------------------------------------------- *)
Section Classes.
Variable F : rcfType.
Variable N : nat.

(* Toeplitz, operators.py 165-184: no _adjoint, no quad *)
Definition toep_linop (root : nat -> complex F) : linop F N (tobj F) :=
  LinOp (fun T v => let: (T', r) := t_matvec root T (colseq v) in
                    match r with Ok y => Ret (\col_i y`_i, T') | Err e => Raise e end)
        (fun _ _ => Raise NotImplementedError) None.

(* MatrixFunction, operators.py 36-151: its own adjoint *)
Variable eps : F.
Variable lap_vals : seq F -> seq F -> res (seq F).
Variable lap_pairs : seq F -> seq F -> res (seq F * seq (seq F)).
Variables (A : 'M[F]_N) (k : okind) (dA : dty).
Definition mf_apply (M : mfobj F) (v : 'cV[F]_N) : outcome ('cV[F]_N * mfobj F) :=
  let: (r, M') := mf_matvec eps lap_vals lap_pairs A k dA M (colseq v) in
  obnd r (fun ys => if finites ys is Some y then Ret (\col_i y`_i, M') else NonFin).
Definition mf_form (M : mfobj F) (v : 'cV[F]_N) : outcome (F * mfobj F) :=
  let: (r, M') := mf_quad eps lap_vals lap_pairs A k dA M [:: colseq v] in
  obnd r (fun ys => if finites ys is Some [:: y] then Ret (y, M') else NonFin).
Definition mf_linop : linop F N (mfobj F) := LinOp mf_apply mf_apply (Some mf_form).
End Classes.
