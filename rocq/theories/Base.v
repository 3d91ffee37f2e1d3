(* Common vocabulary of the model: Python exceptions as values, IEEE-like
   extended numbers, and the few numpy array notions the models share. *)
From mathcomp Require Import all_ssreflect all_algebra.
Set Implicit Arguments.
Unset Strict Implicit.
Unset Printing Implicit Defensive.
Import Order.TTheory GRing.Theory Num.Theory.
Local Open Scope ring_scope.

(* Python exceptions that the modelled code can raise. *)
Inductive exn : Type :=
  | AssertionError | TypeError | ValueError | ZeroDivisionError
  | KeyError | AttributeError | IndexError | LinAlgError | UnboundLocalError
  | NotImplementedError.

(* Result of an expression: a value or an exception. *)
Inductive res (A : Type) : Type := Ok of A | Err of exn.
Arguments Ok {A} _.
Arguments Err {A} _.

Definition bind (A B : Type) (m : res A) (f : A -> res B) : res B :=
  match m with Ok a => f a | Err e => Err e end.

Definition is_ok (A : Type) (m : res A) : bool := if m is Ok _ then true else false.

(* Result of a statement on a mutable object: the object afterwards and the
   exception raised, if any.  (A raise does not undo mutations in Python.) *)
Definition effect (S : Type) : Type := (S * option exn)%type.

(* Runs a method over a sequence of arguments; the history is "successful"
   when no call raised. *)
Fixpoint run_hist (S X : Type) (upd : S -> X -> effect S) (st : S) (xs : seq X) : option S :=
  match xs with
  | [::] => Some st
  | x :: xs' => match upd st x with
                | (st', None) => run_hist upd st' xs'
                | (_, Some _) => None
                end
  end.

(* `while not test(st): st = body(st)`.  `fuel` bounds the number of times the
   condition is evaluated; None means that it was exhausted. *)
Fixpoint while_not (S : Type) (fuel : nat) (test : S -> res bool) (body : S -> res S) (st : S)
  : option (res S) :=
  match fuel with
  | 0%N => None
  | f.+1 => match test st with
            | Err e => Some (Err e)
            | Ok true => Some (Ok st)
            | Ok false => match body st with
                          | Err e => Some (Err e)
                          | Ok st' => while_not f test body st'
                          end
            end
  end.

Section XNum.
Variable F : realFieldType.

(* Floating-point values up to rounding and the sign of zero. *)
Inductive xnum : Type := Fin of F | PInf | NInf | NaN.

(* IEEE comparison: anything compared with NaN is false. *)
Definition xlt (a b : xnum) : bool :=
  match a, b with
  | NaN, _ | _, NaN => false
  | Fin x, Fin y => x < y
  | Fin _, PInf => true
  | Fin _, NInf => false
  | PInf, _ => false
  | NInf, NInf => false
  | NInf, _ => true
  end.

Definition xle (a b : xnum) : bool :=
  match a, b with
  | NaN, _ | _, NaN => false
  | Fin x, Fin y => x <= y
  | _, PInf => true
  | NInf, _ => true
  | Fin _, NInf => false
  | PInf, _ => false
  end.

Definition xabs (a : xnum) : xnum :=
  match a with Fin x => Fin `|x| | PInf | NInf => PInf | NaN => NaN end.

Definition xopp (a : xnum) : xnum :=
  match a with Fin x => Fin (- x) | PInf => NInf | NInf => PInf | NaN => NaN end.

Definition xadd (a b : xnum) : xnum :=
  match a, b with
  | NaN, _ | _, NaN => NaN
  | Fin x, Fin y => Fin (x + y)
  | PInf, NInf | NInf, PInf => NaN
  | PInf, _ | _, PInf => PInf
  | NInf, _ | _, NInf => NInf
  end.

Definition xsub (a b : xnum) : xnum := xadd a (xopp b).

(* inf with the sign of x; inf * 0 is NaN *)
Definition xinf_of_sign (x : F) : xnum :=
  if x == 0 then NaN else if 0 < x then PInf else NInf.

Definition xmul (a b : xnum) : xnum :=
  match a, b with
  | NaN, _ | _, NaN => NaN
  | Fin x, Fin y => Fin (x * y)
  | Fin x, PInf | PInf, Fin x => xinf_of_sign x
  | Fin x, NInf | NInf, Fin x => xinf_of_sign (- x)
  | PInf, PInf | NInf, NInf => PInf
  | PInf, NInf | NInf, PInf => NInf
  end.

(* numpy division: x/0 is a signed infinity, 0/0 is NaN (zero is taken to be +0). *)
Definition xdiv (a b : xnum) : xnum :=
  match a, b with
  | NaN, _ | _, NaN => NaN
  | Fin x, Fin y => if y == 0 then xinf_of_sign x else Fin (x / y)
  | Fin _, PInf | Fin _, NInf => Fin 0
  | PInf, Fin y => if y == 0 then PInf else xinf_of_sign y
  | NInf, Fin y => if y == 0 then NInf else xinf_of_sign (- y)
  | _, _ => NaN
  end.

Definition xfin (a : xnum) : bool := if a is Fin _ then true else false.

End XNum.
Arguments PInf {F}.
Arguments NInf {F}.
Arguments NaN {F}.

Section XSqrt.
Variable F : rcfType.
(* sqrt of a negative number is NaN *)
Definition xsqrt (a : xnum F) : xnum F :=
  match a with
  | Fin x => if x < 0 then NaN else Fin (Num.sqrt x)
  | PInf => PInf
  | NInf | NaN => NaN
  end.
End XSqrt.

(* ---- numpy arrays handed to update() ---------------------------------- *)
Section Arr.
Variable T : Type.

(* A scalar, a 1-d array, or a 2-d array (number of columns, rows).
   Arrays with more than two dimensions are not modelled. *)
Inductive arr : Type :=
  | Arr0 of T
  | Arr1 of seq T
  | Arr2 of nat & seq (seq T).

(* np.atleast_1d followed by x[:, None] for 1-d arrays
   (stats.py 29-30, 72-73; estimators.py 122-123): number of columns and rows. *)
Definition as_rows (a : arr) : nat * seq (seq T) :=
  match a with
  | Arr0 x => (1%N, [:: [:: x]])
  | Arr1 xs => (1%N, [seq [:: x] | x <- xs])
  | Arr2 c rows => (c, rows)
  end.

(* numpy arrays are rectangular *)
Definition arr_wf (a : arr) : bool :=
  match a with
  | Arr2 c rows => all (fun r => size r == c) rows
  | _ => true
  end.

(* rows of an array / of a list of arrays, in order *)
Definition rows_of (a : arr) : seq (seq T) := (as_rows a).2.
Definition cols_of (a : arr) : nat := (as_rows a).1.
Definition all_rows (h : seq arr) : seq (seq T) := flatten [seq rows_of a | a <- h].

End Arr.

(* Runs a method over a sequence of arguments, going on after exceptions (as a
   caller that catches them would). *)
Fixpoint run_any (S X : Type) (upd : S -> X -> effect S) (st : S) (xs : seq X) : S :=
  match xs with
  | [::] => st
  | x :: xs' => run_any upd (upd st x).1 xs'
  end.
