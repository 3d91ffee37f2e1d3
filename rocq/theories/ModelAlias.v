(* Object identity: which arrays the estimators share with their callers.
   The pure models treat attribute values as numbers; this model adds the heap.
   Arrays live at addresses; `self.mu += ...` (stats.py 37, 80) writes the
   array in place, and reads for dim > 1 hand out that very array. *)
From mathcomp Require Import all_ssreflect all_algebra.
From Verif Require Import Base ModelStats ModelEstimators.
Set Implicit Arguments.
Unset Strict Implicit.
Unset Printing Implicit Defensive.
Import Order.TTheory GRing.Theory Num.Theory.
Local Open Scope ring_scope.

Section Alias.
Variable F : rcfType.

(* Two regions: accumulator arrays (1-d) and the caller's batches. *)
Record heap : Type := Heap {
  hp_next : nat;                (* next fresh accumulator address *)
  hp_mu : nat -> nvec F;        (* accumulator arrays *)
  hp_arr : nat -> arr F         (* arrays owned by the caller *)
}.

Definition put (A : Type) (f : nat -> A) (k : nat) (v : A) : nat -> A :=
  fun i => if i == k then v else f i.

(* a MeanEstimator: the address of its accumulator's mu, the scatter matrix if
   covariance=True, the counter, and the recorded rows as references
   (address of the caller's array, row index) *)
Record hest : Type := HEst {
  he_mu : nat; he_dim : nat; he_n : nat; he_S : option (nmat F);
  he_values : option (seq (nat * nat))
}.

(* what a read returns: a number, or a reference to an accumulator array *)
Inductive hval : Type := HFloat of xnum F | HRef of nat.

Record hstate : Type := HState { st_heap : heap; st_est : hest; st_results : seq hval }.

(* estimators.py 109-116 with stats.py 8-11, 47-49: np.zeros allocates *)
Definition h_new (caller : nat -> arr F) (dim : nat) (covariance record : bool) : hstate :=
  HState (Heap 1 (put (fun _ => VNaN) 0 (Vec (zeros F dim))) caller)
         (HEst 0 dim 0 (if covariance then Some (Mat (nseq dim (zeros F dim))) else None)
               (if record then Some [::] else None))
         [::].

(* the accumulator object as a value *)
Definition load (h : heap) (e : hest) : store F :=
  match he_S e with
  | Some M => SCov (MkCov (he_dim e) (he_n e) (hp_mu h (he_mu e)) M)
  | None => SMean (MkMean (he_dim e) (he_n e) (hp_mu h (he_mu e)))
  end.

Definition store_S (s : store F) : option (nmat F) :=
  match s with SCov c => Some (co_S c) | SMean _ => None end.
Definition store_n (s : store F) : nat :=
  match s with SCov c => co_n c | SMean m => me_n m end.

(* commands of a client program *)
Inductive hcmd : Type :=
  | HUpdate of nat                 (* est.update(x), x the caller's array at an address *)
  | HRead                          (* r = est.estimate *)
  | HWrite of nat & arr F          (* caller overwrites one of their arrays *)
  | HWriteResult of nat & nvec F.  (* caller writes into the k-th returned array *)

(* estimators.py 128-141: mu is updated in place, recorded rows are views of
   the caller's array *)
Definition h_update (st : hstate) (a : nat) : hstate :=
  let h := st_heap st in
  let e := st_est st in
  let x := hp_arr h a in
  match store_update (load h e) x with
  | (_, Some _) => st
  | (s', None) =>
      HState (Heap (hp_next h) (put (hp_mu h) (he_mu e) (store_mu s')) (hp_arr h))
             (HEst (he_mu e) (he_dim e) (store_n s') (store_S s')
                (if he_values e is Some vs
                 then Some (vs ++ [seq (a, i) | i <- iota 0 (size (rows_of x))]) else None))
             (st_results st)
  end.

(* stats.py 18-21 / estimators.py 118-124: np.atleast_1d and np.ravel do not copy *)
Definition h_read (st : hstate) : hstate :=
  let e := st_est st in
  let v := if he_n e == 0%N then HFloat NaN
           else if he_dim e == 1%N then
             HFloat (match hp_mu (st_heap st) (he_mu e) with Vec mu => Fin mu`_0 | VNaN => NaN end)
           else HRef (he_mu e) in
  HState (st_heap st) e (rcons (st_results st) v).

Definition h_step (st : hstate) (c : hcmd) : hstate :=
  let h := st_heap st in
  match c with
  | HUpdate a => h_update st a
  | HRead => h_read st
  | HWrite a x => HState (Heap (hp_next h) (hp_mu h) (put (hp_arr h) a x)) (st_est st) (st_results st)
  | HWriteResult k v =>
      match nth (HFloat NaN) (st_results st) k with
      | HFloat _ => st
      | HRef p => HState (Heap (hp_next h) (put (hp_mu h) p v) (hp_arr h)) (st_est st) (st_results st)
      end
  end.

Definition h_run (st : hstate) (p : seq hcmd) : hstate := foldl h_step st p.

(* what the client sees when looking at a returned value *)
Definition deref (st : hstate) (v : hval) : pyval F :=
  match v with HFloat x => PFloat x | HRef p => PArr (hp_mu (st_heap st) p) end.

(* what the client sees when looking at est.values *)
Definition h_values (st : hstate) : option (seq (seq F)) :=
  omap (map (fun r => nth [::] (rows_of (hp_arr (st_heap st) r.1)) r.2)) (he_values (st_est st)).

(* est.estimate right now, as a value *)
Definition h_estimate (st : hstate) : pyval F :=
  match load (st_heap st) (st_est st) with SMean m => mean_call m | SCov c => cov_mean c end.
End Alias.
Arguments HRead {F}.
Arguments HUpdate {F} _.
