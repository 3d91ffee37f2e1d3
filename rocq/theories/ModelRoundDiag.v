(* diag, /repo/src/primate/diagonal.py 11-92, with every floating-point operation
   rounded.  As in ModelRound.v additions happen in any order, so a step is a
   relation: it holds of every state that some order of additions can give.

   The accumulators numer and denom have the dtype of the operator's products
   (diagonal.py 56, 71, 85), the running mean is always float64 (stats.py 11), so
   there are two roundings: `rnd` for the first, `rndE` for the second.
   N > 0.  Overflow is not modelled; a zero denominator gives 0 here, NaN or inf
   in the code (in the theorems no denominator is zero).  When to stop is any
   function of the state: every criterion of estimators.py that does not look at
   recorded values is one. *)
From mathcomp Require Import all_ssreflect all_algebra.
From Verif Require Import Base ModelStats ModelEstimators ModelRandom ModelTrace ModelRound.

Set Implicit Arguments.
Unset Strict Implicit.
Unset Printing Implicit Defensive.
Import Order.TTheory GRing.Theory Num.Theory.
Local Open Scope ring_scope.

Section RoundDiag.
Variable F : rcfType.
Variables (rnd rndE : F -> F).
Variable G : Type.
Variable N : nat.

(* numer, denom and the n, mu of the estimator's Mean -- diagonal.py 71/85, stats.py 8-11 *)
Record rdst : Type := RD { rd_numer : 'cV[F]_N; rd_denom : 'cV[F]_N; rd_n : nat; rd_mu : 'cV[F]_N }.
Definition rd0 : rdst := RD 0 0 0 0.

(* entry i of A @ v -- diagonal.py 76, 88 *)
Definition rmatvec (A : 'M[F]_N) (v w : 'cV[F]_N) : Prop :=
  forall i, dotv rnd [seq A i j * v j 0 | j <- enum 'I_N] (w i 0).

(* numer += u * v.ravel() -- 77, 89 *)
Definition rnumer (st : rdst) (v w : 'cV[F]_N) : 'cV[F]_N := \col_i rnd (rd_numer st i 0 + rnd (w i 0 * v i 0)).
(* denom += np.square(v.ravel()) -- 78, 90 *)
Definition rdenom (st : rdst) (v : 'cV[F]_N) : 'cV[F]_N := \col_i rnd (rd_denom st i 0 + rnd (v i 0 ^+ 2)).
(* numer / denom -- 79, 91 *)
Definition rratio (a b : 'cV[F]_N) : 'cV[F]_N := \col_i rnd (a i 0 / b i 0).

(* estimator.update(np.atleast_2d(..)): one row, so the batch mean is the row divided by 1
   -- stats.py 23-38 *)
Definition rmean_row (n : nat) (mu y : 'cV[F]_N) : 'cV[F]_N :=
  \col_i rmu_step rndE n 1 (mu i 0) (rbatch_mean rndE (y i 0) 1).

(* the loop body for the probe v -- diagonal.py 75-79, 87-91 *)
Definition rdstep (A : 'M[F]_N) (v : 'cV[F]_N) (st st' : rdst) : Prop :=
  exists2 w, rmatvec A v w &
    st' = RD (rnumer st v w) (rdenom st v) (rd_n st).+1
             (rmean_row (rd_n st) (rd_mu st) (rratio (rnumer st v w) (rdenom st v))).

(* the loop -- 74-81, 86-91: from a generator, a state and the probes drawn so far to the
   last state and all probes *)
Inductive rdloop (A : 'M[F]_N) (sample : sampler F G N) (stop : rdst -> bool) :
    G -> rdst -> seq 'cV[F]_N -> rdst -> seq 'cV[F]_N -> Prop :=
| RDStop g st ps : stop st -> rdloop A sample stop g st ps st ps
| RDStep g st ps st1 st' qs : ~~ stop st ->
    rdstep A (head 0 (sample 1%N g).1) st st1 ->
    rdloop A sample stop (sample 1%N g).2 st1 (rcons ps (head 0 (sample 1%N g).1)) st' qs ->
    rdloop A sample stop g st ps st' qs.

(* diag -- 57-92: the estimate (None for the nan of an estimator without samples) and the probes drawn *)
Definition rdiag (A : 'M[F]_N) (sample : sampler F G N) (stop : rdst -> bool) (g : G)
    (x : option 'cV[F]_N) (ps : seq 'cV[F]_N) : Prop :=
  exists2 st, rdloop A sample stop g rd0 [::] st ps
            & x = if rd_n st == 0%N then None else Some (rd_mu st).

(* CountCriterion -- estimators.py 207-214 *)
Definition rdcount (n : nat) (st : rdst) : bool := (n <= rd_n st)%N.
End RoundDiag.
Arguments rd0 {F N}.
