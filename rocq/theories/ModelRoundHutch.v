(* The whole loop of hutch with every floating-point operation rounded:
   /repo/src/primate/trace.py 96-116 on top of the rounded accumulators of
   ModelRound.v.  As there, additions happen in any order, so a run is a relation:
   it holds of every value that some order of additions can return.

   Only operators without a `quad` method (trace.py 97, second branch) and the
   criteria that read the number of samples, the mean and the variance are
   modelled here.  Overflow is not modelled.  The scores of the Student and normal
   distributions (`tppf`, `zq`) are given values, and entries of the probes are
   stored without rounding (they are -1 and 1 in the theorems). *)
From mathcomp Require Import all_ssreflect all_algebra.
From Verif Require Import Base ModelStats ModelEstimators ModelRandom ModelTrace ModelRound.

Set Implicit Arguments.
Unset Strict Implicit.
Unset Printing Implicit Defensive.
Import Order.TTheory GRing.Theory Num.Theory.
Local Open Scope ring_scope.

Section RoundHutch.
Variable F : rcfType.
Variable rnd : F -> F.
Variable G : Type.
Variable tppf : F -> nat -> F.
Variable zq : F -> F.
Variable N : nat.

(* the matrix by rows, a probe by entries *)
Definition mx_rows (M : 'M[F]_N) : seq (seq F) := [seq [seq M i j | j <- enum 'I_N] | i <- enum 'I_N].
Definition entries (v : 'cV[F]_N) : seq F := [seq v i 0 | i <- enum 'I_N].

(* quad_form(v) for a block of probes, one entry per column -- trace.py 97 *)
Definition rforms (M : 'M[F]_N) (vs : seq 'cV[F]_N) (xs : seq F) : Prop :=
  size xs = size vs /\
  forall i, (i < size vs)%N -> rquad rnd (mx_rows M) (entries (nth 0 vs i)) xs`_i.

(* rel_error = abs(std_error / est.estimate) -- estimators.py 285 *)
Definition rrel_error (st : racc F) : xnum F :=
  match rstd_error rnd st with
  | Fin se => xabs (if ra_mu st == 0 then xinf_of_sign se else Fin (rnd (se / ra_mu st)))
  | e => xabs e
  end.

(* score -- estimators.py 286 *)
Definition rscore (conf : F) (n : nat) : F :=
  if (n < 30)%N then t_scores tppf conf n else zq conf.

(* the criteria modelled here: CountCriterion, ConfidenceCriterion and their
   combinations -- estimators.py 207-214, 246-293, 63-73 *)
Inductive rcrit : Type :=
| RCount of int
| RConf of F & xnum F & xnum F
| ROr of rcrit & rcrit | RAnd of rcrit & rcrit | RNot of rcrit.

(* converge(estimator) -- estimators.py 213-214, 280-293 *)
Fixpoint rcall (c : rcrit) (st : racc F) : bool :=
  match c with
  | RCount n => n <= (ra_n st)%:Z
  | RConf conf atol rtol =>
      if (ra_n st < 3)%N then xle PInf atol || xle PInf rtol
      else xle (rmargin rnd (rscore conf (ra_n st)) st) atol || xle (rrel_error st) rtol
  | ROr a b => rcall a st || rcall b st
  | RAnd a b => rcall a st && rcall b st
  | RNot a => ~~ rcall a st
  end.

(* the default criterion -- trace.py 89-92 *)
Definition rdefault : rcrit := ROr (RCount 200) (RConf (19%:R / 20%:R) (Fin 1) (Fin 0)).

(* estimator.estimate: nan before the first sample -- stats.py 18-21 *)
Definition restimate (st : racc F) : xnum F := if ra_n st == 0%N then NaN else Fin (ra_mu st).

(* the loop -- trace.py 107-110 and 114-115: from a generator, an accumulator and
   the probes drawn so far to the value returned and all probes drawn *)
Inductive rloop (M : 'M[F]_N) (sample : sampler F G N) (b : nat) (c : rcrit) :
    G -> racc F -> seq 'cV[F]_N -> xnum F -> seq 'cV[F]_N -> Prop :=
| RStop g st ps : rcall c st -> rloop M sample b c g st ps (restimate st) ps
| RStep g st ps xs st' x qs : ~~ rcall c st ->
    rforms M (sample b g).1 xs -> rupdate rnd st xs st' ->
    rloop M sample b c (sample b g).2 st' (ps ++ (sample b g).1) x qs ->
    rloop M sample b c g st ps x qs.

(* hutch -- trace.py 96-116: the value returned and the probes drawn; the batch
   size only counts with full=True or a callback (105, 115) *)
Definition rhutch (M : 'M[F]_N) (batch : nat) (sample : sampler F G N) (c : rcrit)
    (full callback : bool) (g : G) (x : xnum F) (ps : seq 'cV[F]_N) : Prop :=
  if N == 0%N then x = Fin 0 /\ ps = [::]
  else rloop M sample (if full || callback then batch else 1%N) c g (racc0 F) [::] x ps.

End RoundHutch.
