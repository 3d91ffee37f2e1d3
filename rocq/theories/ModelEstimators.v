(* Model of /repo/src/primate/estimators.py *)
From mathcomp Require Import all_ssreflect all_algebra.
From Verif Require Import Base ModelStats.
Set Implicit Arguments.
Unset Strict Implicit.
Unset Printing Implicit Defensive.
Import Order.TTheory GRing.Theory Num.Theory.
Local Open Scope ring_scope.

Section Estimators.
Variable F : rcfType.
Local Notation xn := (xnum F).

(* entries of an array attribute of length d *)
Definition nvec_x (d : nat) (v : nvec F) : seq xn :=
  match v with Vec s => [seq Fin x | x <- s] | VNaN => nseq d NaN end.

(* The `delta` attribute: a 0-d infinity (ControlVariableEstimator, 160) or a
   1-d array (MeanEstimator, 111, 134, 138). *)
Inductive dval : Type := D0 of xn | D1 of seq xn.

(* What a stopping criterion can see of an estimator. *)
Record eview : Type := EView {
  ev_len : nat;                      (* len(est) *)
  ev_is_mean : bool;                 (* isinstance(est, MeanEstimator) *)
  ev_nsamples : nat;                 (* est.n_samples *)
  ev_delta : dval;                   (* est.delta *)
  ev_estimate : res (seq xn);        (* np.atleast_1d(est.estimate) *)
  ev_values : option (seq (seq F));  (* est.values *)
  ev_cov : option (cov F)            (* est._cov, if the attribute exists *)
}.

(* ---- class MeanEstimator, estimators.py 102-145 ------------------------ *)
(* the accumulator: _mean or _cov, lines 113-116 *)
Inductive store : Type := SMean of mean F | SCov of cov F.

Record mest : Type := MkMest {
  ms_store : store;
  ms_n : nat;                         (* n_samples *)
  ms_delta : seq xn;                  (* delta *)
  ms_values : option (seq (seq F))    (* values *)
}.

Definition store_mu (s : store) : nvec F :=
  match s with SMean m => me_mu m | SCov c => co_mu c end.
Definition store_dim (s : store) : nat :=
  match s with SMean m => me_dim m | SCov c => co_dim c end.

(* estimators.py 109-116 *)
Definition mest_init (dim : nat) (covariance record : bool) : mest :=
  MkMest (if covariance then SCov (cov_init F dim) else SMean (mean_init F dim))
         0 (nseq dim PInf) (if record then Some [::] else None).

(* `.update` of the accumulator, 133/137 *)
Definition store_update (s : store) (x : arr F) : effect store :=
  match s with
  | SMean m => let: (m', e) := mean_update m x in (SMean m', e)
  | SCov c => let: (c', e) := cov_update c x in (SCov c', e)
  end.

(* entrywise mu - old_mu *)
Definition nvec_sub (d : nat) (a b : nvec F) : seq xn :=
  match a, b with
  | Vec a, Vec b => mkseq (fun i => Fin (a`_i - b`_i)) d
  | _, _ => nseq d NaN
  end.

(* estimators.py 128-141.  If the accumulator raises, nothing has been changed
   (old_mu is a copy). *)
Definition mest_update (st : mest) (x : arr F) : effect mest :=
  let: (cols, X) := as_rows x in
  let old_mu := store_mu (ms_store st) in
  match store_update (ms_store st) (Arr2 cols X) with
  | (s', Some e) => (MkMest s' (ms_n st) (ms_delta st) (ms_values st), Some e)
  | (s', None) =>
      (MkMest s' (ms_n st + size X)
              (nvec_sub (store_dim s') (store_mu s') old_mu)
              (if ms_values st is Some vs then Some (vs ++ X) else None), None)
  end.

(* estimators.py 118-124 and 143-145; for the covariance accumulator the value
   goes through atleast_1d / item / ravel, which changes nothing. *)
Definition mest_estimate (st : mest) : pyval F :=
  match ms_store st with SMean m => mean_call m | SCov c => cov_mean c end.

(* np.atleast_1d of a float / 1-d array *)
Definition pyval_x (d : nat) (p : pyval F) : seq xn :=
  match p with
  | PFloat x => [:: x]
  | PArr v => nvec_x d v
  | PMat _ => [::]
  end.

Definition mest_view (st : mest) : eview :=
  EView (ms_n st) true (ms_n st) (D1 (ms_delta st))
    (Ok (pyval_x (store_dim (ms_store st)) (mest_estimate st)))
    (ms_values st)
    (match ms_store st with SCov c => Some c | SMean _ => None end).

(* ---- class ControlVariableEstimator, estimators.py 148-196 -------------- *)
Record cvest : Type := MkCv {
  cv_cov : cov F;               (* cov *)
  cv_alpha : option (seq xn);   (* alpha, None until known *)
  cv_ecv : seq F;               (* ecv *)
  cv_cor : bool;                (* _estimate_cor *)
  cv_n : nat;                   (* n_samples *)
  cv_delta : dval;              (* delta *)
  cv_values : option (seq (seq F))
}.

(* 149-160; the inherited accumulator is never used again *)
Definition cv_init (ecv : seq F) (alpha : option (seq F)) (record : bool) : res cvest :=
  if (if alpha is Some a then size ecv != size a else false) then Err AssertionError
  else Ok (MkCv (cov_init F (size ecv).+1) (omap (map (@Fin F)) alpha) ecv
                (alpha == None) 0 (D0 PInf) (if record then Some [::] else None)).

(* np.linalg.solve(C[1:,1:], C[1:,0]) *)
Definition np_solve (k : nat) (C : seq (seq F)) : res (seq xn) :=
  let M : 'M[F]_k := \matrix_(i, j) (nth [::] C i.+1)`_j.+1 in
  let b : 'cV[F]_k := \col_i (nth [::] C i.+1)`_0 in
  if M \in unitmx then Ok [seq Fin ((invmx M *m b) i 0) | i <- enum 'I_k]
  else Err LinAlgError.

(* 172-173: coefficients from the covariance matrix C (a float C is not
   subscriptable) *)
Definition cv_coef (dim : nat) (C : pyval F) : res (seq xn) :=
  match C with
  | PMat (Mat M) =>
      if dim == 2%N then Ok [:: xdiv (Fin (nth [::] M 0)`_1) (Fin (nth [::] M 1)`_1)]
      else np_solve dim.-1 M
  | PMat MNaN => Ok (nseq dim.-1 NaN)
  | PFloat _ | PArr _ => Err TypeError
  end.

(* 166-180: the covariance object and n_samples are updated before C is
   inspected *)
Definition cv_update (st : cvest) (x : arr F) : effect cvest :=
  match cov_update (cv_cov st) x with
  | (c', Some e) => (MkCv c' (cv_alpha st) (cv_ecv st) (cv_cor st) (cv_n st) (cv_delta st) (cv_values st), Some e)
  | (c', None) =>
      let st' a := MkCv c' a (cv_ecv st) (cv_cor st) (co_n c') (cv_delta st) (cv_values st) in
      if cv_cor st then
        match bind (cov_call c' 1) (cv_coef (co_dim c')) with
        | Ok a => (st' (Some a), None)
        | Err e => (st' (cv_alpha st), Some e)
        end
      else (st' (cv_alpha st), None)
  end.

(* np.dot *)
Definition xdot (a b : seq xn) : xn :=
  foldr (@xadd F) (Fin 0) [seq xmul p.1 p.2 | p <- zip a b].

(* 189-196; np.dot(None, array) is a TypeError *)
Definition cv_estimate (st : cvest) : res xn :=
  if cv_n st == 0%N then Ok NaN
  else match cv_alpha st with
       | None => Err TypeError
       | Some a =>
           match co_mu (cv_cov st) with
           | VNaN => Ok NaN
           | Vec mu =>
               Ok (xsub (Fin mu`_0)
                  (xdot a (mkseq (fun i => Fin (mu`_i.+1 - (cv_ecv st)`_i)) (size (cv_ecv st)))))
           end
       end.

(* `_cov` does not exist (covariance=False in 151); update() assigns neither
   delta nor values *)
Definition cv_view (st : cvest) : eview :=
  EView (cv_n st) true (cv_n st) (cv_delta st)
    (bind (cv_estimate st) (fun x => Ok [:: x])) (cv_values st) None.

(* ---- vector norms: np.linalg.norm on 0-d / 1-d arrays ------------------- *)
(* ord argument; other p-norms are not modelled *)
Inductive nord : Type := OrdNone | Ord1 | Ord2 | OrdInf | OrdNegInf | Ord0 | OrdStr.

Definition xsum (l : seq xn) : xn := foldr (@xadd F) (Fin 0) l.
Definition xmax (a b : xn) : xn :=
  match a, b with NaN, _ => NaN | _, NaN => NaN | _, _ => if xlt a b then b else a end.
Definition xmin (a b : xn) : xn :=
  match a, b with NaN, _ => NaN | _, NaN => NaN | _, _ => if xlt a b then a else b end.
Definition xnonzero (a : xn) : bool := if a is Fin x then x != 0 else true.

Definition norm1d (o : nord) (l : seq xn) : res xn :=
  match o with
  | OrdNone | Ord2 => Ok (xsqrt (xsum [seq xmul x x | x <- l]))
  | Ord1 => Ok (xsum [seq xabs x | x <- l])
  | OrdInf => if l is x :: l' then Ok (foldr xmax (xabs x) [seq xabs y | y <- l']) else Err ValueError
  | OrdNegInf => if l is x :: l' then Ok (foldr xmin (xabs x) [seq xabs y | y <- l']) else Err ValueError
  | Ord0 => Ok (Fin (count xnonzero l)%:R)
  | OrdStr => Err ValueError
  end.

(* a 0-d array is accepted only with ord=None *)
Definition norm_d (o : nord) (d : dval) : res xn :=
  match d with
  | D1 l => norm1d o l
  | D0 x => if o is OrdNone then Ok (xabs x) else Err ValueError
  end.

(* ---- stopping criteria -------------------------------------------------- *)
(* Student quantile tppf p df and sqrt(2)*erfinv(confidence) are parameters. *)
Variable tppf : F -> nat -> F.
Variable zq : F -> F.

Inductive crit : Type :=
  | CCount of int                       (* CountCriterion(count) *)
  | CTol of xn & xn & nord              (* ToleranceCriterion(rtol, atol, ord) *)
  | CConf of F & xn & xn                (* ConfidenceCriterion(confidence, atol, rtol) *)
  | CKnee of F                          (* KneeCriterion(S) *)
  | CFun of (eview -> res bool)         (* ConvergenceCriterion(operation) *)
  | COr of crit & crit | CAnd of crit & crit | CNot of crit.

(* estimators.py 213-214 *)
Definition count_call (c : int) (e : eview) : res bool := Ok (c <= (ev_len e)%:Z).

(* estimators.py 229-234 *)
Definition tol_call (rtol atol : xn) (o : nord) (e : eview) : res bool :=
  bind (ev_estimate e) (fun est =>
  bind (norm_d o (ev_delta e)) (fun err =>
  if xlt err atol then Ok true
  else bind (norm1d o est) (fun ne => Ok (xlt err (xmul rtol ne))))).

(* self.t_scores, estimators.py 253: entry k has k+1 degrees of freedom *)
Definition t_scores (conf : F) (k : nat) : F := tppf ((conf + 1) / 2%:R) k.+1.

(* estimators.py 280-288; with dim > 1 the entries are matrices, whose truth
   value raises ValueError in __call__ (dim = 0 not modelled) *)
Definition conf_error (conf : F) (e : eview) : res (xn * xn) :=
  if (ev_nsamples e < 3)%N then Ok (PInf, PInf)
  else match ev_cov e with
  | None => Err AttributeError
  | Some c =>
      bind (cov_call c 1) (fun v =>
      bind (ev_estimate e) (fun est =>
      match v with
      | PFloat x =>
          let std_error := xdiv (xsqrt x) (Fin (Num.sqrt (ev_nsamples e)%:R)) in
          let rel_error := xabs (xdiv std_error (head NaN est)) in
          let score := if (ev_nsamples e < 30)%N then t_scores conf (ev_nsamples e) else zq conf in
          Ok (xmul (Fin score) std_error, rel_error)
      | _ => Err ValueError
      end))
  end.

(* estimators.py 290-293 *)
Definition conf_call (conf : F) (atol rtol : xn) (e : eview) : res bool :=
  if ~~ ev_is_mean e then Err AssertionError
  else bind (conf_error conf e) (fun me => Ok (xle me.1 atol || xle me.2 rtol)).

(* estimators.py 306-327.
   mv / np.arange(1, len+1), np.diff, abs, cumsum *)
Definition knee_scaled (mv : seq F) : seq F := mkseq (fun i => mv`_i / i.+1%:R) (size mv).
Definition np_diff (s : seq F) : seq F := mkseq (fun i => s`_i.+1 - s`_i) (size s).-1.
Definition np_cumsum (s : seq F) : seq F := mkseq (fun i => \sum_(j < i.+1) s`_j) (size s).
Definition seq_max (s : seq F) : F := foldr Num.max s`_0 s.
Definition seq_min (s : seq F) : F := foldr Num.min s`_0 s.
(* np.linspace(0, 1, len)[i] *)
Definition linspace01 (len i : nat) : F := i%:R / (len.-1)%:R.

Definition knee_y (mv : seq F) : seq F :=
  np_cumsum [seq `|x| | x <- np_diff (knee_scaled mv)].

(* difference curve, lines 314-316; 0/0 is NaN *)
Definition knee_curve (y : seq F) : seq xn :=
  mkseq (fun i => xsub (xdiv (Fin (y`_i - seq_min y)) (Fin (seq_max y - seq_min y)))
                       (Fin (linspace01 (size y) i))) (size y).

(* value at np.argmax (NaN wins) *)
Definition curve_max (l : seq xn) : xn := if l is x :: l' then foldr xmax x l' else NaN.

Definition knee_call (sens : F) (e : eview) : res bool :=
  match ev_values e with
  | None => Ok false
  | Some vs =>
      if (size vs < 3)%N then Ok false
      else
        let y := knee_y (flatten vs) in
        if y is [::] then Err ValueError      (* y.min() of an empty array *)
        else
          let dc := knee_curve y in
          let max_diff := curve_max dc in
          let threshold := xsub max_diff (xdiv (Fin sens) (Fin ((size y).-1)%:R)) in
          Ok (xlt threshold max_diff && xlt (last NaN dc) threshold)
  end.

(* __call__ of every criterion; composite criteria (estimators.py 63-73)
   evaluate both operands *)
Fixpoint crit_call (c : crit) (e : eview) : res bool :=
  match c with
  | CCount n => count_call n e
  | CTol r a o => tol_call r a o e
  | CConf q a r => conf_call q a r e
  | CKnee s => knee_call s e
  | CFun f => f e
  | COr a b => bind (crit_call a e) (fun x => bind (crit_call b e) (fun y => Ok (x || y)))
  | CAnd a b => bind (crit_call a e) (fun x => bind (crit_call b e) (fun y => Ok (x && y)))
  | CNot a => bind (crit_call a e) (fun x => Ok (~~ x))
  end.

(* hutch's default criterion, trace.py 92-94: atol = 1.0, rtol = 0.0.
   The confidence level 0.95 is the rational 19/20. *)
Definition default_crit : crit := COr (CCount 200) (CConf (19%:R / 20%:R) (Fin 1) (Fin 0)).

End Estimators.
