(* Model of /repo/src/primate/random.py: isotropic, the Isotropic class,
   symmetric and haar. *)
From Coq Require Import String.
From mathcomp Require Import all_ssreflect all_algebra.
From Verif Require Import Base ModelTyping.
Set Implicit Arguments.
Unset Strict Implicit.
Unset Printing Implicit Defensive.
Import Order.TTheory GRing.Theory Num.Theory.
Local Open Scope ring_scope.

(* distributions and the names accepted for them, random.py 12-18 *)
Inductive dist : Type := Rademacher | Normal | Sphere.
Definition ISO_DISTRIBUTIONS : seq (string * dist) :=
  [:: ("rademacher"%string, Rademacher); ("normal"%string, Normal); ("sphere"%string, Sphere);
      ("signs"%string, Rademacher); ("gaussian"%string, Normal)].

(* np.floor on a double: every finite double is a rational *)
Definition floorq (x : rat) : rat := ((numq x %/ denq x)%Z)%:Q.

(* random.py 22-29, one entry; `x` is what rng.random wrote there *)
Definition rademacher_entry (x : rat) : rat :=
  let x := x * 2%:R in
  let x := floorq x in
  let x := x * 2%:R in
  x - 1.

Section Iso.
Variable F : rcfType.
(* A generator is a state with two element-wise draws: rng.random and
   rng.standard_normal.  Doubles from rng.random are rationals. *)
Variable G : Type.
Variable unif : G -> rat * G.
Variable gauss : G -> F * G.

(* n successive draws *)
Fixpoint draws (T : Type) (d : G -> T * G) (n : nat) (g : G) : seq T * G :=
  match n with
  | 0%N => ([::], g)
  | m.+1 => let: (x, g1) := d g in let: (s, g2) := draws d m g1 in (x :: s, g2)
  end.

(* numpy fills `out` in memory order; W is Fortran ordered (line 76), so the
   k columns of length n are filled one after the other *)
Fixpoint fill_cols (T : Type) (d : G -> T * G) (n k : nat) (g : G) : seq (seq T) * G :=
  match k with
  | 0%N => ([::], g)
  | m.+1 => let: (c, g1) := draws d n g in let: (s, g2) := fill_cols d n m g1 in (c :: s, g2)
  end.

(* random.py 36-41, one column.  A zero column gives 0/0 = NaN in the code;
   here it gives 0 (theorems about this assume a non-zero column). *)
Definition sphere_col (s : seq F) : seq F :=
  let c := Num.sqrt (\sum_(x <- s) x ^+ 2) in
  [seq x / c * Num.sqrt (size s)%:R | x <- s].

(* _ISO_FUNCS, random.py 22-44: the columns written and the generator after *)
Definition iso_fill (p : dist) (n k : nat) (g : G) : seq (seq F) * G :=
  match p with
  | Rademacher => let: (cs, g') := fill_cols unif n k g in
                  ([seq [seq ratr (rademacher_entry x) | x <- c] | c <- cs], g')
  | Normal => fill_cols gauss n k g
  | Sphere => let: (cs, g') := fill_cols gauss n k g in ([seq sphere_col c | c <- cs], g')
  end.

(* What can be passed as `pdf`: a string or a callable.  A callable maps a
   generator (whatever hidden state it uses) and a shape to columns. *)
Inductive pdfarg : Type :=
  | PName of string
  | PCall of (nat -> nat -> G -> seq (seq F) * G).

(* isotropic(pdf=..., seed=rng), lines 64-80: the sampler; the membership test
   fails for anything that is not one of the five strings *)
Definition isotropic (p : pdfarg) : res (nat -> nat -> G -> seq (seq F) * G) :=
  match p with
  | PName s => match lookup s ISO_DISTRIBUTIONS with
               | Some d => Ok (iso_fill d)
               | None => Err AssertionError
               end
  | PCall _ => Err AssertionError
  end.
End Iso.
