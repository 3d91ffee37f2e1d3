(* Model of xtrace and its helper (/repo/src/primate/trace.py 185-315) and of
   xdiag (/repo/src/primate/diagonal.py 99-138). *)
From Coq Require Import String.
From mathcomp Require Import all_ssreflect all_algebra.
From Verif Require Import Base ModelStats ModelEstimators ModelTyping ModelRandom ModelTrace ModelHutchpp.
Set Implicit Arguments.
Unset Strict Implicit.
Unset Printing Implicit Defensive.
Import Order.TTheory GRing.Theory Num.Theory.
Local Open Scope ring_scope.

Section Helper.
Variable F : rcfType.

(* diag_prod(A, B) = np.einsum("ij,ji->i", A.T, B), trace.py 200, diagonal.py 111 *)
Definition diag_prod (r m : nat) (A B : 'M[F]_(r, m)) : 'cV[F]_m := \col_i \sum_l A l i * B l i.

(* R_inv.T / np.linalg.norm(R_inv, axis=1), trace.py 206, diagonal.py 127: the
   i-th column of the result is the i-th row of R_inv divided by its norm *)
Definition sphericalS (m : nat) (R_inv : 'M[F]_m) : 'M[F]_m :=
  \matrix_(l, i) (R_inv i l / Num.sqrt (\sum_k R_inv i k ^+ 2)).

Definition col_norm (r m : nat) (X : 'M[F]_(r, m)) : 'cV[F]_m := \col_i Num.sqrt (\sum_l X l i ^+ 2).

(* what can be bound to `pdf` when the helper is called *)
Inductive pdfv : Type := VName of string | VFun.

(* _xtrace, trace.py 185-227.  Division by zero gives 0 here, NaN/inf in the
   code (theorems assume non-zero divisors). *)
Definition xtrace_helper (n m : nat) (W Z Q : 'M[F]_(n, m)) (R R_inv : 'M[F]_m) (pdf : pdfv) : 'cV[F]_m :=
  let W_proj := Q^T *m W in
  let S := sphericalS R_inv in
  let scale : 'cV[F]_m :=
    if (if pdf is VName s then (s =? "sphere")%string else false) then
      let c : F := n%:R - m%:R + 1 in
      \col_i (c / (n%:R - col_norm W_proj i 0 ^+ 2 + (diag_prod S W_proj i 0 * col_norm S i 0) ^+ 2))
    else const_mx 1 in
  let H := Q^T *m Z in
  let HW := H *m W_proj in
  let T := Z^T *m W in
  let dSW := diag_prod S W_proj in
  let dSHS := diag_prod S (H *m S) in
  let dTW := diag_prod T W_proj in
  let dWHW := diag_prod W_proj HW in
  let dSRmHW := diag_prod S (R - HW) in
  let dTmHRS := diag_prod (T - H^T *m W_proj) S in
  \col_i (\tr H - dSHS i 0 +
    (- dTW i 0 + dWHW i 0 + dSW i 0 * dSRmHW i 0 + `|dSW i 0| ^+ 2 * dSHS i 0 + dTmHRS i 0 * dSW i 0) * scale i 0).
End Helper.

Section Arrays.
Variable F : rcfType.
(* two-dimensional arrays of varying shape *)
Record nd : Type := ND { nd_r : nat; nd_c : nat; nd_e : nat -> nat -> F }.
Definition to_mx (r c : nat) (a : nd) : 'M[F]_(r, c) := \matrix_(i, j) nd_e a i j.
Definition of_mx (r c : nat) (M : 'M[F]_(r, c)) : nd :=
  ND r c (fun i j => match insub i, insub j with Some i', Some j' => M i' j' | _, _ => 0 end).
(* np.c_[a, b] *)
Definition hstack (a b : nd) : nd :=
  ND (nd_r a) (nd_c a + nd_c b)
     (fun i j => if (j < nd_c a)%N then nd_e a i j else nd_e b i (j - nd_c a)%N).
(* a[:, -ns:]; -0 is 0 *)
Definition last_cols (ns : nat) (a : nd) : nd :=
  let s := if ns == 0%N then 0%N else (nd_c a - ns)%N in
  ND (nd_r a) (nd_c a - s) (fun i j => nd_e a i (s + j)%N).
End Arrays.

Section Xtrace.
Variable F : rcfType.
Variable G : Type.
Variable unif : G -> rat * G.
Variable gauss : G -> F * G.
Variable tppf : F -> nat -> F.
Variable zq : F -> F.
Variable n : nat.
(* scipy.linalg.qr_insert(Q, R, u, k=Q.shape[1], which="col") *)
Variable qr_insert : forall k, 'M[F]_(n, k) -> 'M[F]_k -> 'cV[F]_n -> 'M[F]_(n, k + 1) * 'M[F]_(k + 1).
Local Notation nd := (nd F).

(* lines 299-300 *)
Definition insert1 (u : 'cV[F]_n) (s : nd * nd * nd) : res (nd * nd * nd) :=
  let: (q, r, ri) := s in
  let k := nd_c q in
  let: (Q', R') := qr_insert (to_mx n k q) (to_mx k k r) u in
  bind (update_trinv (to_mx (nd_r ri) (nd_c ri) ri) (col (rshift k 0) R'))
       (fun ri' => Ok (of_mx Q', of_mx R', of_mx ri')).

(* for j in range(ns), 298 *)
Fixpoint insert_cols (us : seq 'cV[F]_n) (s : nd * nd * nd) : res (nd * nd * nd) :=
  if us is u :: us' then bind (insert1 u s) (insert_cols us') else Ok s.

Record xstate : Type := XState {
  xs_W : nd; xs_Z : nd; xs_fac : nd * nd * nd;
  xs_est : mest F; xs_gen : G;
  xs_seen : seq (eresult F (mest F)); xs_probes : seq 'cV[F]_n
}.

Definition xtrace_test (c : crit F) (st : xstate) : res bool :=
  crit_call tppf zq c (mest_view (xs_est st)).

(* lines 291-310.  `pdf` was rebound to a function in 288, so the helper gets a
   function. *)
Definition xtrace_body (A : 'M[F]_n) (batch : int) (sample : sampler F G n) (record notify : bool)
    (st : xstate) : res xstate :=
  let ns := minn (n - nd_c (xs_W st)) `|batch|%N in
  let: (vs, g') := sample ns (xs_gen st) in
  let N := mat_of_cols ns vs in
  let Y := A *m N in
  bind (insert_cols [seq col j Y | j <- enum 'I_ns] (xs_fac st)) (fun fac =>
    let: (q, r, ri) := fac in
    let W := hstack (xs_W st) (of_mx N) in
    let Ql := last_cols ns q in
    let Z := hstack (xs_Z st) (of_mx (A *m to_mx n (nd_c Ql) Ql)) in
    let m := nd_c W in
    let t := xtrace_helper (to_mx n m W) (to_mx n m Z) (to_mx n m q) (to_mx m m r) (to_mx m m ri) VFun in
    match mest_update (mest_init F 1 false record) (Arr1 [seq t i 0 | i <- enum 'I_m]) with
    | (_, Some e) => Err e
    | (est', None) =>
        Ok (XState W Z (q, r, ri) est' g'
              (if notify then rcons (xs_seen st) (EResult None (PFloat (Fin 0)) 0) else xs_seen st)
              (xs_probes st ++ vs))
    end).

(* lines 271-276: in the else branch `converge` has just been overwritten, so
   the argument plays no role *)
Definition xtrace_criterion (c : carg F) (kw : kwargs (pyarg F)) : res (crit F) :=
  let dflt := CCount F n%:Z in
  if (if c is CName s then (s =? "default")%string else false) then Ok dflt
  else bind (convergence_criterion (CGiven dflt) kw) (fun r =>
         match r with
         | RGiven x => Ok (COr dflt x)
         | RBuilt o => if crit_of o is Some x then Ok (COr dflt x) else Err TypeError
         end).

(* lines 279-286 *)
Definition xtrace_init (record : bool) (g : G) : xstate :=
  XState (of_mx (0 : 'M[F]_(n, 0))) (of_mx (0 : 'M[F]_(n, 0)))
    (of_mx (0 : 'M[F]_(n, 0)), of_mx (0 : 'M[F]_0), of_mx (0 : 'M[F]_0))
    (mest_init F 1 false record) g [::] [::].

(* lines 233-315 *)
Definition xtrace (fuel : nat) (A : 'M[F]_n) (batch : int) (p : pdfarg F G) (c : carg F) (kw : kwargs (pyarg F))
    (record full callback : bool) (g : G) : option (res (run F G n)) :=
  if ~~ (1 <= batch) then Some (Err AssertionError)
  else match xtrace_criterion c kw with
  | Err e => Some (Err e)
  | Ok cr =>
    match hutch_pdf unif gauss n p with
    | Err e => Some (Err e)
    | Ok sample =>
      match while_not fuel (xtrace_test cr) (xtrace_body A batch sample record callback) (xtrace_init record g) with
      | None => None
      | Some (Err e) => Some (Err e)
      | Some (Ok st) =>
          let v := mest_estimate (xs_est st) in
          Some (Ok (Run (if full then TPair v (EResult (Some (xs_est st)) v 0) else TScalar v)
                        (xs_seen st) (xs_probes st) (xs_gen st)))
      end
    end
  end.
End Xtrace.

Section Xdiag.
Variable F : rcfType.
Variable G : Type.
Variable unif : G -> rat * G.
Variable gauss : G -> F * G.
Variable n : nat.
(* np.linalg.qr(Y, mode="reduced") of an n x k array with k <= n *)
Variable qr : forall k, 'M[F]_(n, k) -> 'M[F]_(n, k) * 'M[F]_k.

(* diagonal.py 107-108 *)
Definition xdiag_m (m : option int) : int :=
  let m2 := if m is Some x then Num.min (x + (x %% 2)%Z) (2 * n%:Z) else 2 * n%:Z in
  (m2 %/ 2)%Z.

(* what is returned, and the probes drawn (an observation of the run) *)
Record xdrun : Type := XdRun { xd_diag : seq (xnum F); xd_probes : seq 'cV[F]_n }.

(* diagonal.py 99-138 for a resolved sampler.  A division by m = 0 turns every
   entry into NaN. *)
Definition xdiag_run (A : 'M[F]_n) (m : option int) (sample : sampler F G n) (g : G) : res xdrun :=
  let mm := xdiag_m m in
  if mm < 0 then Err ValueError
  else
    let k := `|mm|%N in
    let: (vs, g') := sample k g in
    let N := mat_of_cols k vs in
    let Y := A *m N in
    let: (Q, R) := qr Y in
    let dNY := diag_prod N^T Y^T in
    let Z := A^T *m Q in
    let T := Z^T *m N in
    if R \notin unitmx then Err LinAlgError     (* np.linalg.inv *)
    else
      let S := sphericalS (invmx R) in
      let QS := Q *m S in
      let dQZ := diag_prod Q^T Z^T in
      let dQSSZ := diag_prod QS^T (Z *m S)^T in
      let dNTQ := diag_prod N^T (Q *m T)^T in
      let dST := diag_prod S T in
      let dNQSST := diag_prod N^T (\matrix_(j, i) (dST j 0 * (QS^T) j i)) in
      Ok (XdRun [seq if k == 0%N then NaN
              else Fin (dQZ i 0 + (- dQSSZ i 0 + dNY i 0 - dNTQ i 0 + dNQSST i 0) / k%:R) | i <- enum 'I_n] vs).

Definition xdiag (A : 'M[F]_n) (m : option int) (p : pdfarg F G) (g : G) : res xdrun :=
  bind (isotropic unif gauss p) (fun f => xdiag_run A m (mk_sampler n f) g).
End Xdiag.
