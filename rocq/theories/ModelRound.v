(* The running accumulators of /repo/src/primate/stats.py and one probe of the
   Hutchinson estimator, with every floating-point operation rounded.

   `rnd` stands for the rounding of one operation of the arithmetic in use.
   The theorems quantify over it and say what they assume about it.  Overflow
   is not modelled (values are elements of F); gradual underflow is covered
   where a theorem only assumes monotonicity and not a relative error bound.

   numpy and BLAS do not fix the order in which they add: pairwise summation,
   blocked loops, fused multiply-add.  So a sum is not a function here but a
   relation that holds of every value some order of additions can give.  Adding
   the first term to an initial 0 is not counted as an operation: it is exact.

   Only dim = 1 is modelled (stats.py 84, the branch `delta_mean * delta_mean`),
   which is what hutch uses. *)
From mathcomp Require Import all_ssreflect all_algebra.
From Verif Require Import Base ModelStats.

Set Implicit Arguments.
Unset Strict Implicit.
Unset Printing Implicit Defensive.
Import Order.TTheory GRing.Theory Num.Theory.
Local Open Scope ring_scope.

Section Round.
Variable F : rcfType.
Variable rnd : F -> F.

(* X.sum(axis=0) inside X.mean(axis=0) -- stats.py 34 and 77: any order *)
Inductive sumv : seq F -> F -> Prop :=
| Sum0 : sumv [::] 0
| Sum1 x : sumv [:: x] x
| SumAdd xs ys a b : xs != [::] -> ys != [::] -> sumv xs a -> sumv ys b ->
                     sumv (xs ++ ys) (rnd (a + b))
| SumPerm xs ys a : perm_eq xs ys -> sumv xs a -> sumv ys a.

(* a dot product, given the list of its exact products: each product is rounded
   before it is added, or added by a fused multiply-add; any order
   -- `X_centered.T @ X_centered`, stats.py 85, and the products in trace.py 97 *)
Inductive dotv : seq F -> F -> Prop :=
| Dot0 : dotv [::] 0
| Dot1 p : dotv [:: p] (rnd p)
| DotFma p ps a : dotv ps a -> dotv (p :: ps) (rnd (a + p))
| DotAdd ps qs a b : ps != [::] -> qs != [::] -> dotv ps a -> dotv qs b ->
                     dotv (ps ++ qs) (rnd (a + b))
| DotPerm ps qs a : perm_eq ps qs -> dotv ps a -> dotv qs a.

(* n, mu, S of a Covariance(dim=1) -- stats.py 47-49 *)
Record racc : Type := MkRacc { ra_n : nat; ra_mu : F; ra_S : F }.

(* stats.py 8-11, 47-49 *)
Definition racc0 : racc := MkRacc 0 0 0.

(* batch_mean = X.mean(axis=0): the sum, then one division -- stats.py 77 *)
Definition rbatch_mean (s : F) (b : nat) : F := rnd (s / b%:R).

(* delta_mean = batch_mean - self.mu -- stats.py 78 *)
Definition rdelta (bm mu : F) : F := rnd (bm - mu).

(* self.mu += (X.shape[0] / new_n) * delta_mean -- stats.py 80 *)
Definition rmu_step (n b : nat) (mu bm : F) : F :=
  rnd (mu + rnd (rnd (b%:R / (n + b)%:R) * rdelta bm mu)).

(* X_centered = X - batch_mean -- stats.py 83 *)
Definition rcentered (bm : F) (X : seq F) : seq F := [seq rnd (x - bm) | x <- X].

(* self.S += (X_centered.T @ X_centered) + (self.n * X.shape[0] / new_n) * X_shift
   -- stats.py 84-85; q is the computed value of X_centered.T @ X_centered *)
Definition rS_step (n b : nat) (mu bm S q : F) : F :=
  rnd (S + rnd (q + rnd (rnd ((n * b)%:R / (n + b)%:R)
                         * rnd (rdelta bm mu * rdelta bm mu)))).

(* Covariance.update on a non-empty batch of scalars -- stats.py 66-86 *)
Definition rupdate (st : racc) (X : seq F) (st' : racc) : Prop :=
  exists s q,
    [/\ sumv X s,
        dotv [seq y * y | y <- rcentered (rbatch_mean s (size X)) X] q
      & st' = MkRacc (ra_n st + size X)
                (rmu_step (ra_n st) (size X) (ra_mu st) (rbatch_mean s (size X)))
                (rS_step (ra_n st) (size X) (ra_mu st) (rbatch_mean s (size X))
                   (ra_S st) q)].

(* a history of batches *)
Inductive rrun : seq (seq F) -> racc -> Prop :=
| Run0 : rrun [::] racc0
| RunS h st X st' : rrun h st -> X != [::] -> rupdate st X st' ->
                    rrun (rcons h X) st'.

(* Covariance.__call__(ddof) for dim = 1 -- stats.py 51-64 *)
Definition rcov_call (st : racc) (ddof : nat) : xnum F :=
  if (ra_n st <= ddof)%N then PInf else Fin (rnd (ra_S st / (ra_n st - ddof)%:R)).

(* x ** (1/2): NaN for a negative x -- estimators.py 283 *)
Definition rsqrt (x : xnum F) : xnum F :=
  match x with
  | Fin a => if a < 0 then NaN else Fin (rnd (Num.sqrt a))
  | PInf => PInf
  | _ => NaN
  end.

(* std_error = std_dev / np.sqrt(est.n_samples) -- estimators.py 281-284, after
   the early return for fewer than three samples *)
Definition rstd_error (st : racc) : xnum F :=
  match rsqrt (rcov_call st 1) with
  | Fin sd => Fin (rnd (sd / rnd (Num.sqrt (ra_n st)%:R)))
  | e => e
  end.

(* margin_of_error = score * std_error -- estimators.py 287 *)
Definition rmargin (score : F) (st : racc) : xnum F :=
  match rstd_error st with Fin se => Fin (rnd (score * se)) | e => e end.

(* one probe: the products A @ v, then the products with v
   -- trace.py 97 for one column of v *)
Definition rquad (A : seq (seq F)) (v : seq F) (r : F) : Prop :=
  exists w : seq F,
    [/\ size w = size A,
        forall i, (i < size A)%N ->
          dotv [seq p.1 * p.2 | p <- zip (nth [::] A i) v] w`_i
      & dotv [seq p.1 * p.2 | p <- zip v w] r].

End Round.
