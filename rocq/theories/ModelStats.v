(* Model of /repo/src/primate/stats.py *)
From mathcomp Require Import all_ssreflect all_algebra.
From Verif Require Import Base.
From Coq Require Import String.
Set Implicit Arguments.
Unset Strict Implicit.
Unset Printing Implicit Defensive.
Import Order.TTheory GRing.Theory Num.Theory.
Local Open Scope ring_scope.

Section Stats.
Variable F : rcfType.

(* Value of an array attribute: ordinary numbers, or NaN in every entry
   (with finite inputs NaN appears only through an empty batch, and then
   everywhere at once). *)
Inductive nvec : Type := Vec of seq F | VNaN.
Inductive nmat : Type := Mat of seq (seq F) | MNaN.

(* What a read-out returns: a float or an array. *)
Inductive pyval : Type := PFloat of xnum F | PArr of nvec | PMat of nmat.

(* np.zeros(dim) *)
Definition zeros (d : nat) : seq F := nseq d 0.

(* X.mean(axis=0) for a non-empty batch, column i -- stats.py 34, 77 *)
Definition batch_mean (X : seq (seq F)) (i : nat) : F :=
  (\sum_(x <- X) x`_i) / (size X)%:R.

(* ---- class Mean, stats.py 7-38 ---------------------------------------- *)
Record mean : Type := MkMean { me_dim : nat; me_n : nat; me_mu : nvec }.

(* stats.py 8-11 *)
Definition mean_init (dim : nat) : mean := MkMean dim 0 (Vec (zeros dim)).

(* stats.py 13-16 and 18-21 (identical bodies).  For dim = 1 `.item()`. *)
Definition mean_call (st : mean) : pyval :=
  if me_n st == 0%N then PFloat NaN
  else if me_dim st == 1%N then
    PFloat (match me_mu st with Vec mu => Fin mu`_0 | VNaN => NaN end)
  else PArr (me_mu st).

(* self.mu + (b / new_n) * (batch_mean - self.mu) -- stats.py 34-37, 77-80 *)
Definition mu_step (dim n : nat) (mu : nvec) (X : seq (seq F)) : nvec :=
  match mu with
  | VNaN => VNaN
  | Vec mu =>
      if X is [::] then VNaN
      else Vec (mkseq (fun i => mu`_i +
                  ((size X)%:R / (n + size X)%:R) * (batch_mean X i - mu`_i)) dim)
  end.

(* stats.py 23-38.  `X.shape[0] / new_n` on Python ints raises
   ZeroDivisionError when both are 0; an empty batch on a non-empty object
   adds 0.0 * nan. *)
Definition mean_update (st : mean) (x : arr F) : effect mean :=
  let: (cols, X) := as_rows x in
  if cols != me_dim st then (st, Some AssertionError)
  else
    let new_n := (me_n st + size X)%N in
    if new_n == 0%N then (st, Some ZeroDivisionError)
    else (MkMean (me_dim st) new_n (mu_step (me_dim st) (me_n st) (me_mu st) X), None).

(* ---- class Covariance(Mean), stats.py 41-88 ---------------------------- *)
Record cov : Type := MkCov { co_dim : nat; co_n : nat; co_mu : nvec; co_S : nmat }.

(* stats.py 47-49 *)
Definition cov_init (dim : nat) : cov :=
  MkCov dim 0 (Vec (zeros dim)) (Mat (nseq dim (zeros dim))).

(* inherited Mean.mean, stats.py 18-21 *)
Definition cov_mean (st : cov) : pyval := mean_call (MkMean (co_dim st) (co_n st) (co_mu st)).

(* entry (i,j) of S: self.S += X_centered.T @ X_centered
     + (n * b / new_n) * outer(delta_mean, delta_mean) -- stats.py 82-85.
   For dim = 1 the code squares delta_mean elementwise, which is the same entry. *)
Definition S_step (dim n : nat) (mu : nvec) (Sm : nmat) (X : seq (seq F)) : nmat :=
  match mu, Sm with
  | Vec mu, Mat M =>
      if X is [::] then MNaN
      else
        let dm i := batch_mean X i - mu`_i in
        Mat (mkseq (fun i => mkseq (fun j =>
               (nth [::] M i)`_j +
               (\sum_(x <- X) (x`_i - batch_mean X i) * (x`_j - batch_mean X j)
                + ((n * size X)%:R / (n + size X)%:R) * (dm i * dm j))) dim) dim)
  | _, _ => MNaN
  end.

(* stats.py 66-86 *)
Definition cov_update (st : cov) (x : arr F) : effect cov :=
  let: (cols, X) := as_rows x in
  if cols != co_dim st then (st, Some AssertionError)
  else
    let new_n := (co_n st + size X)%N in
    if new_n == 0%N then (st, Some ZeroDivisionError)
    else (MkCov (co_dim st) new_n
            (mu_step (co_dim st) (co_n st) (co_mu st) X)
            (S_step (co_dim st) (co_n st) (co_mu st) (co_S st) X), None).

(* stats.py 51-64 and 88 (covariance = __call__).  np.diag(np.inf, 0) raises
   ValueError because its argument is 0-dimensional. *)
Definition cov_call (st : cov) (ddof : int) : res pyval :=
  if (co_n st)%:Z - ddof <= 0 then
    if co_dim st == 0%N then Err ValueError else Ok (PFloat PInf)
  else
    let den := ((co_n st)%:Z - ddof)%:~R in
    let C := match co_S st with
             | Mat M => Mat [seq [seq s / den | s <- r] | r <- M]
             | MNaN => MNaN
             end in
    if co_dim st == 1%N then
      Ok (PFloat (match C with Mat C => Fin (nth [::] C 0)`_0 | MNaN => NaN end))
    else Ok (PMat C).

(* ---- confidence_interval, stats.py 102-113 ------------------------------ *)
(* Quantile functions of scipy (sp.stats.t.ppf with given degrees of freedom,
   and the normal interval's half-width in standard units) are parameters.
   `confidence` not a number is not modelled. *)
Variable tppf : F -> nat -> F.
Variable normal_q : F -> F.

(* np.mean of a 1-d array *)
Definition np_mean (a : seq F) : F := (\sum_(x <- a) x) / (size a)%:R.
(* np.std(a, ddof=1) *)
Definition np_std1 (a : seq F) : F :=
  Num.sqrt ((\sum_(x <- a) (x - np_mean a) ^+ 2) / ((size a)%:R - 1)).

(* sp.stats.sem(a, ddof=1) = std(ddof=1)/sqrt(n).  For samples of size < 2
   numpy yields NaN; the theorems assume size >= 2. *)
Definition confidence_interval (a : seq F) (confidence : F) (sdist : string) : res (F * F) :=
  if ~~ ((0 <= confidence) && (confidence <= 1)) then Err AssertionError
  else if (sdist =? "t")%string then
    let m := tppf ((1 + confidence) / 2%:R) (size a - 1) in
    let se := np_std1 a / Num.sqrt (size a)%:R in
    Ok (np_mean a - m * se, np_mean a + m * se)
  else if (sdist =? "normal")%string then
    let se := np_std1 a / Num.sqrt (size a)%:R in
    Ok (np_mean a - normal_q confidence * se, np_mean a + normal_q confidence * se)
  else Err ValueError.

End Stats.
Arguments VNaN {F}.
Arguments MNaN {F}.
