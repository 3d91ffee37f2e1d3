(* Model of /repo/src/primate/typing.py, of convergence_criterion
   (/repo/src/primate/estimators.py 336-355) and of trace._chunk. *)
From Coq Require Import String Ascii.
From mathcomp Require Import all_ssreflect all_algebra.
From Verif Require Import Base ModelStats ModelEstimators.
Set Implicit Arguments.
Unset Strict Implicit.
Unset Printing Implicit Defensive.
Import Order.TTheory GRing.Theory Num.Theory.
Local Open Scope ring_scope.

Section Dict.
Variable V : Type.

(* A keyword dictionary in insertion order; Python guarantees distinct keys. *)
Definition kwargs := seq (string * V).

Fixpoint lookup (k : string) (kw : kwargs) : option V :=
  if kw is (k', v) :: kw' then if (k =? k')%string then Some v else lookup k kw' else None.

Definition mem_str (k : string) (s : seq string) : bool := has (String.eqb k) s.

(* typing.py 5-8; `params` are the names in inspect.signature(fun).parameters *)
Definition restrict_kwargs (params : seq string) (kw : kwargs) : kwargs :=
  [seq p <- kw | mem_str p.1 params].

(* typing.py 11-14.  The result is built by iterating over a Python set, so its
   order is unspecified; insertion order is used here. *)
Definition setdiff_kwargs (params : seq string) (kw : kwargs) : kwargs :=
  [seq p <- kw | ~~ mem_str p.1 params].

(* Calling f with the keyword dictionary kw: unexpected or missing keywords are TypeErrors, missing
   optional ones take their default.  `sig` lists names with optional default. *)
Definition call_bind (sig : seq (string * option V)) (kw : kwargs) : res kwargs :=
  if ~~ all (fun p => mem_str p.1 [seq q.1 | q <- sig]) kw then Err TypeError
  else foldr (fun q acc => bind acc (fun b =>
         match lookup q.1 kw, q.2 with
         | Some v, _ | None, Some v => Ok ((q.1, v) :: b)
         | None, None => Err TypeError
         end)) (Ok [::]) sig.
End Dict.

Section Criteria.
Variable F : rcfType.

(* Argument values that reach the constructors. *)
Inductive pyarg : Type := AInt of int | ANum of xnum F | ANone | AOrd of nord.

(* the dictionary CRITERIA, estimators.py 336-341 *)
Inductive cclass : Type := KCount | KTolerance | KConfidence | KKnee.
Definition CRITERIA : seq (string * cclass) :=
  [:: ("count"%string, KCount); ("tolerance"%string, KTolerance);
      ("confidence"%string, KConfidence); ("knee"%string, KKnee)].

(* 1.49e-08 *)
Definition atol_default : F := 149%:R / 10%:R ^+ 10.

(* constructor signatures: estimators.py 210, 222-224, 249, 303 *)
Definition signature (k : cclass) : seq (string * option pyarg) :=
  match k with
  | KCount => [:: ("count"%string, None)]
  | KTolerance => [:: ("rtol"%string, Some (ANum (Fin (1 / 100%:R))));
                      ("atol"%string, Some (ANum (Fin atol_default)));
                      ("ord"%string, Some (AOrd Ord2))]
  | KConfidence => [:: ("confidence"%string, Some (ANum (Fin (19%:R / 20%:R))));
                       ("atol"%string, Some (ANum (Fin 0)));
                       ("rtol"%string, Some (ANum (Fin (1 / 100%:R))))]
  | KKnee => [:: ("S"%string, Some (ANum (Fin 1)))]
  end.

Definition as_num (a : pyarg) : option (xnum F) :=
  match a with AInt z => Some (Fin z%:~R) | ANum x => Some x | _ => None end.

(* A constructed criterion: its class and the values of its parameters. *)
Record cobj : Type := CObj { c_class : cclass; c_args : kwargs pyarg }.

(* `0 < confidence and confidence < 1`, estimators.py 250; comparing a
   non-number raises TypeError.  The other constructors only store values. *)
Definition construct (k : cclass) (kw : kwargs pyarg) : res cobj :=
  bind (call_bind (signature k) kw) (fun b =>
  match k with
  | KConfidence =>
      match obind as_num (lookup "confidence"%string b) with
      | None => Err TypeError
      | Some x => if xlt (Fin 0) x && xlt x (Fin 1) then Ok (CObj k b) else Err AssertionError
      end
  | _ => Ok (CObj k b)
  end).

(* str.lower() on ASCII strings (Unicode case folding is not modelled) *)
Definition lower_ascii (c : ascii) : ascii :=
  let n := nat_of_ascii c in if (65 <= n)%N && (n <= 90)%N then ascii_of_nat (n + 32) else c.
Fixpoint lower (s : string) : string :=
  match s with EmptyString => EmptyString | String c s' => String (lower_ascii c) (lower s') end.

(* what `criterion` can be: an object, a string, something else *)
Inductive carg : Type := CGiven of crit F | CName of string | COther.
Inductive cresult : Type := RGiven of crit F | RBuilt of cobj.

(* estimators.py 346-355 *)
Definition convergence_criterion (c : carg) (kw : kwargs pyarg) : res cresult :=
  match c with
  | CGiven x => Ok (RGiven x)
  | COther => Err AssertionError
  | CName s =>
      match lookup (lower s) CRITERIA with
      | None => Err AssertionError
      | Some k => bind (construct k (restrict_kwargs [seq q.1 | q <- signature k] kw))
                       (fun o => Ok (RBuilt o))
      end
  end.

(* The criterion a constructed object denotes, for arguments of the expected
   types (None for atol/rtol of ConfidenceCriterion means 0.0, 251-252). *)
Definition crit_of (o : cobj) : option (crit F) :=
  let arg k := lookup k (c_args o) in
  let num k := obind as_num (arg k) in
  let num0 k := match arg k with Some ANone => Some (Fin 0) | Some a => as_num a | None => None end in
  match c_class o with
  | KCount => if arg "count"%string is Some (AInt n) then Some (CCount F n) else None
  | KTolerance =>
      match num "rtol"%string, num "atol"%string, arg "ord"%string with
      | Some r, Some a, Some (AOrd x) => Some (CTol r a x)
      | Some r, Some a, Some ANone => Some (CTol r a OrdNone)
      | _, _, _ => None
      end
  | KConfidence =>
      match num "confidence"%string, num0 "atol"%string, num0 "rtol"%string with
      | Some (Fin c), Some a, Some r => Some (CConf c a r)
      | _, _, _ => None
      end
  | KKnee => if num "S"%string is Some (Fin s) then Some (CKnee s) else None
  end.
End Criteria.
Arguments ANone {F}.
Arguments AInt {F} _.
Arguments AOrd {F} _.
Arguments CName {F} _.
Arguments COther {F}.

Section Chunk.
Variable T : Type.

(* itertools.islice + walrus loop, trace.py 29-31; the fuel is never the
   limiting factor (PropTyping) *)
Fixpoint chunk_loop (fuel n : nat) (s : seq T) : seq (seq T) :=
  match fuel with
  | 0%N => [::]
  | f.+1 => let batch := take n s in
            if batch is [::] then [::] else batch :: chunk_loop f n (drop n s)
  end.

(* np.array_split(a, 3): the first (len mod 3) pieces have one more row *)
Definition split_size (len k i : nat) : nat := (len %/ k + (i < len %% k))%N.
Definition array_split (k : nat) (a : seq T) : seq (seq T) :=
  mkseq (fun i => take (split_size (size a) k i)
                       (drop (\sum_(j < i) split_size (size a) k j)%N a)) k.

(* trace.py 23-31 *)
Definition chunk (is_ndarray : bool) (s : seq T) (n : int) : res (seq (seq T)) :=
  if ~~ (1 <= n) then Err AssertionError
  else if is_ndarray then Ok (array_split 3 s)
  else Ok (chunk_loop (size s).+1 `|n|%N s).
End Chunk.
