(* What the library reports: the message() methods of estimators.py and the data
   handed to bokeh by plotting.py.  Rendering of numbers as digits and of
   figures as pixels is left out. *)
From mathcomp Require Import all_ssreflect all_algebra.
From Verif Require Import Base ModelStats ModelEstimators.
From Coq Require Import String.
Set Implicit Arguments.
Unset Strict Implicit.
Unset Printing Implicit Defensive.
Import Order.TTheory GRing.Theory Num.Theory.
Local Open Scope ring_scope.

Section Report.
Variable F : rcfType.
Local Notation xn := (xnum F).
Variable tppf : F -> nat -> F.
Variable zq : F -> F.

(* A piece of a message: literal text, a number formatted with a given number
   of decimals, a count, an array printed with two decimals, a norm order. *)
Inductive tok : Type :=
  | TText of string | TNum of nat & xn | TCount of nat | TArr of seq xn | TOrd of nord.

(* arr_summary, estimators.py 18-32 *)
Definition arr_summary (x : seq xn) : seq tok :=
  if size x == 1%N then [:: TNum 3 (head NaN x)]
  else if (size x <= 3)%N then [:: TArr x]
  else [:: TArr (take 2 x); TText ",...,"; TNum 2 (last NaN x)].

(* CountCriterion.message, estimators.py 216-218 *)
Definition count_message (e : eview F) : res (seq tok) :=
  bind (ev_estimate e) (fun x =>
  Ok (TText "Est: " :: cat (arr_summary x) [:: TText " (#S:"; TCount (ev_len e); TText ")"])).

(* ToleranceCriterion.message, estimators.py 236-243.  `est.estimate is not
   None` always holds.  `:3f` is a minimal width; it prints six decimals. *)
Definition tol_message (rtol atol : xn) (o : nord) (e : eview F) : res (seq tok) :=
  bind (ev_estimate e) (fun x =>
  let d := match ev_delta e with D0 v => [:: v] | D1 l => l end in
  bind (norm1d o d) (fun err =>
  bind (norm1d o x) (fun nrm =>
  Ok (TText "Est: " :: cat (arr_summary x)
      [:: TText "(atol="; TNum 6 atol; TText ", rtol="; TNum 6 rtol; TText ", #S:";
          TCount (ev_len e); TText ")"; TText "norm(it - est, "; TOrd o; TText ") = ";
          TNum 3 err; TText ", norm(est, "; TOrd o; TText ") = "; TNum 3 nrm])))).

(* ConfidenceCriterion.message, estimators.py 295-299.  With dim > 1 the margin
   is an array, which does not accept the format `.3f` (conf_error signals the
   array by ValueError). *)
Definition conf_message (conf : F) (e : eview F) : res (seq tok) :=
  bind (ev_estimate e) (fun x =>
  match conf_error tppf zq conf e with
  | Ok (moe, _) =>
      Ok (TText "Est: " :: cat (arr_summary x)
          [:: TText " +/- "; TNum 3 moe; TText " ("; TNum 0 (Fin (conf * 100%:R));
              TText "% CI, #S:"; TCount (ev_len e); TText ")"])
  | Err ValueError => Err TypeError
  | Err ex => Err ex
  end).

(* KneeCriterion.message, estimators.py 329-333 *)
Definition knee_message (sens : F) (e : eview F) : res (seq tok) :=
  bind (ev_estimate e) (fun x =>
  Ok (TText "Est: " :: cat (arr_summary x)
      [:: TText " (#S:"; TCount (ev_len e); TText ", S="; TNum 6 (Fin sens); TText ")"])).

(* criterion.message(est); |, & and ~ build plain ConvergenceCriterion objects,
   whose message is the fixed text of estimators.py 75-76 *)
Definition crit_message (c : crit F) (e : eview F) : res (seq tok) :=
  match c with
  | CCount _ => count_message e
  | CTol r a o => tol_message r a o e
  | CConf q _ _ => conf_message q e
  | CKnee s => knee_message s e
  | CFun _ | COr _ _ | CAnd _ _ | CNot _ => Ok [:: TText "Composite convergence criterion"]
  end.

(* ---- plotting.py ----------------------------------------------------------- *)
(* What a caller passes: an estimator (its `values` attribute, None without
   record=True) or a sequence of samples.  A sample is a number or NaN (None). *)
Inductive plotarg : Type := PEst of option (seq (seq (option F))) | PSeq of seq (option F).

(* the sample array and np.isnan on it -- plotting.py 69-70 and 128-137.
   np.ravel(None) is an object array and np.isnan raises TypeError. *)
Definition plot_samples (a : plotarg) : res (seq (option F)) :=
  match a with
  | PEst None => Err TypeError
  | PEst (Some vs) => Ok (flatten vs)
  | PSeq s => Ok s
  end.

(* sample_vals[valid_samples] -- plotting.py 73, 140 *)
Definition valid_of (s : seq (option F)) : seq F := pmap id s.
(* np.arange(1, n_samples + 1) -- plotting.py 72, 139 *)
Definition sample_index (s : seq (option F)) : seq nat := iota 1 (size (valid_of s)).
(* np.cumsum(...) / sample_index -- plotting.py 73, 140 *)
Definition sample_avgs (s : seq (option F)) : seq F :=
  mkseq (fun i => (np_cumsum (valid_of s))`_i / i.+1%:R) (size (valid_of s)).

(* figure_sequence: the points, the running average and the reference line
   -- plotting.py 63-96 *)
Record fig_seq : Type := FigSeq {
  fs_px : seq nat; fs_py : seq (option F);
  fs_lx : seq nat; fs_ly : seq F;
  fs_span : option F }.

Definition figure_sequence (a : plotarg) (mu : option F) : res fig_seq :=
  bind (plot_samples a) (fun s =>
  Ok (FigSeq (sample_index s) s (sample_index s) (sample_avgs s) mu)).

(* the loop of plotting.py 152-158: feeds one sample after the other *)
Fixpoint error_loop (absolute : bool) (est : mest F) (s : seq F) : res (seq xn) :=
  match s with
  | [::] => Ok [::]
  | x :: s' =>
      match mest_update est (Arr0 x) with
      | (_, Some ex) => Err ex
      | (est', None) =>
          bind (conf_error tppf zq (19%:R / 20%:R) (mest_view est')) (fun me =>
          bind (error_loop absolute est' s') (fun r =>
          Ok ((if absolute then me.1 else me.2) :: r)))
      end
  end.

(* figure_error: the error curve and the end point and height of the threshold
   line -- plotting.py 117-169.  With mu given, only cum_abs_error and
   cum_rel_error are assigned and line 159 reads the unbound cum_error. *)
Record fig_err : Type := FigErr {
  fe_x : seq nat; fe_y : seq xn; fe_thr : option (nat * F) }.

Definition figure_error (a : plotarg) (mu threshold : option F) (absolute : bool) : res fig_err :=
  bind (plot_samples a) (fun s =>
  bind (match mu with
        | Some _ => Err UnboundLocalError
        | None => error_loop absolute (mest_init F 1 true false) (valid_of s)
        end) (fun cum_error =>
  match threshold with
  | None => Ok (FigErr (sample_index s) cum_error None)
  | Some t =>
      if sample_index s is [::] then Err IndexError
      else Ok (FigErr (sample_index s) cum_error (Some (last 0%N (sample_index s), t)))
  end)).

(* np.searchsorted(values, x), side='left', for sorted values -- plotting.py 11 *)
Definition searchsorted (values : seq F) (x : F) : nat := find (fun y => x <= y) values.

(* figure_csm: the corners of the step area -- plotting.py 7-30 *)
Definition figure_csm (values : seq F) : res (seq F * seq F) :=
  if values is [::] then Err ZeroDivisionError
  else
    let m := 1 / (size values)%:R in
    Ok (rcons values 1, rcons [seq (searchsorted values x)%:R * m | x <- values] 1).

(* figure_jacobi: the degrees drawn -- plotting.py 36-60.  bokeh's Category10 has
   palettes of 3 to 10 colours. *)
Definition figure_jacobi (deg : int) : res (seq nat) :=
  if ~~ (deg <= 10%:Z) then Err AssertionError
  else if deg < 3%:Z then Err KeyError
  else Ok (iota 0 (absz deg)).

End Report.
