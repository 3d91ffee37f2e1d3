(* Model of /repo/src/primate/special.py.  Arguments are finite numbers, arrays
   are 1-d; arithmetic is exact (no overflow). *)
From Coq Require Import String.
From mathcomp Require Import all_ssreflect all_algebra.
From Verif Require Import Base ModelTyping.
Set Implicit Arguments.
Unset Strict Implicit.
Unset Printing Implicit Defensive.
Import Order.TTheory GRing.Theory Num.Theory.
Local Open Scope string_scope.
Local Open Scope ring_scope.

(* special.py 7 *)
Definition BUILTIN : seq string := [:: "identity"; "abs"; "sqrt"; "log"; "inv"; "exp"; "smoothstep"; "numrank"].

Section Special.
Variable F : rcfType.
(* np.exp, np.log on positive numbers, np.finfo(np.float64).eps *)
Variables (fexp flog : F -> F) (feps : F).

(* np.clip(x, lo, hi) *)
Definition fclip (x lo hi : F) : F := Num.min (Num.max x lo) hi.

(* ---- softsign, 10-28 ---------------------------------------------------------- *)
(* np.arange(k): empty for k <= 0 *)
Definition arange (k : int) : seq nat := if 0 < k then iota 0 `|k|%N else [::].
(* np.append([1], np.cumprod([(2*j-1)/(2*j) for j in np.arange(1, q+1)])), 20 *)
Definition ss_J (q : int) : seq F :=
  let fs := [seq (2%:R * j.+1%:R - 1) / (2%:R * j.+1%:R) | j <- arange q] in
  1 :: scanl *%R 1 fs.

(* _sign, 22-26, on one entry.  I and J have the same length unless q < 0, when
   the broadcast product is empty. *)
Definition softsign1 (q : int) (x : F) : F :=
  let x := fclip x (-1) 1 in                                                (* 23 *)
  \sum_(p <- zip (arange (q + 1)) (ss_J q)) x * (1 - x ^+ 2) ^+ p.1 * p.2.  (* 25 *)
Definition softsign (q : int) (xs : seq F) : seq F := [seq softsign1 q x | x <- xs].

(* ---- smoothstep, 31-53 -------------------------------------------------------- *)
Definition smoothstep1 (a b x : F) : F :=
  let d := if a != b then b - a else 1 in                                   (* 44 *)
  let y := fclip ((x - a) / d) 0 1 in                                       (* 47 *)
  3%:R * y ^+ 2 - 2%:R * y ^+ 3.                                            (* 48 *)
Definition smoothstep (a b : F) (deg : int) : res (seq F -> seq F) :=
  if (deg %% 2)%Z == 1 then Ok (fun xs => [seq smoothstep1 a b x | x <- xs]) else Err AssertionError.

(* ---- exp, 62-66; step, 69-74 -------------------------------------------------- *)
Definition exp1 (t x : F) : F := fexp (t * x).
Definition step1 (c : F) (nonnegative : bool) (x : F) : F :=
  let x := if nonnegative then `|x| else x in
  if x < c then 0 else 1.

(* ---- param_callable, 77-107 --------------------------------------------------- *)
(* A callable argument is any function of a 1-d array; XOther is a non-callable,
   non-string object. *)
Definition spec_fun : Type := seq F -> seq (xnum F).
Inductive farg : Type := XNone | XStr of string | XCall of spec_fun | XOther.
(* the keyword arguments that are looked at; all others are ignored *)
Record fkw : Type := FKw { kw_t : option F; kw_a : option F; kw_b : option F; kw_q : option int; kw_threshold : option F }.

Definition lift (f : F -> F) : spec_fun := map (fun x => Fin (f x)).
(* np.log of a finite number *)
Definition nplog (x : F) : xnum F := if 0 < x then Fin (flog x) else if x == 0 then NInf else NaN.

Definition param_callable (f : farg) (kw : fkw) : res spec_fun :=
  match f with
  | XNone => Ok (lift id)                                                   (* 81-82 *)
  | XCall g => Ok g                                                         (* 83-84 *)
  | XOther => Err ValueError                                                (* 107 *)
  | XStr s =>
      if ~~ mem_str s BUILTIN then Err AssertionError                       (* 79-80 *)
      else if String.eqb s "identity" then Ok (lift id)
      else if String.eqb s "abs" then Ok (lift Num.norm)
      else if String.eqb s "sqrt" then Ok (map (fun x => xsqrt (Fin x)))
      else if String.eqb s "log" then Ok (map (fun x => nplog (Num.max x feps)))
      else if String.eqb s "inv" then Ok (map (fun x => xdiv (Fin 1) (Fin x)))
      else if String.eqb s "exp" then Ok (lift (exp1 (odflt 1 (kw_t kw))))
      else if String.eqb s "smoothstep" then
        bind (smoothstep (odflt 0 (kw_a kw)) (odflt 1 (kw_b kw)) 3) (fun g => Ok (fun xs => [seq Fin y | y <- g xs]))
      else if String.eqb s "softsign" then
        Ok (fun xs => [seq Fin y | y <- softsign (odflt 10 (kw_q kw)) xs])
      else if String.eqb s "numrank" then
        Ok (lift (step1 (odflt (1 / 10%:R ^+ 6) (kw_threshold kw)) true))
      else Err ValueError
  end.
End Special.
Arguments XNone {F}.
Arguments XStr {F} _.
Arguments XOther {F}.
