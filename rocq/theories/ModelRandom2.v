(* Model of the rest of /repo/src/primate/random.py: isotropic with all its
   arguments, the multithreaded class Isotropic, symmetric and haar.  The
   element-wise samplers are in ModelRandom. *)
From Coq Require Import String.
From mathcomp Require Import all_ssreflect all_algebra.
From Verif Require Import Base ModelTyping ModelRandom.
Set Implicit Arguments.
Unset Strict Implicit.
Unset Printing Implicit Defensive.
Import Order.TTheory GRing.Theory Num.Theory.
Local Open Scope ring_scope.

(* ---- random.py 22-29 with rounding ---------------------------------------------- *)
(* one entry of _rademacher_inplace when every ufunc rounds its result by `rnd` *)
Definition rademacher_rounded (rnd : rat -> rat) (x : rat) : rat :=
  let x := rnd (x * 2%:R) in
  let x := rnd (floorq x) in
  let x := rnd (x * 2%:R) in
  rnd (x - 1).

Section Rand.
Variable F : rcfType.
Variable G : Type.
Variable unif : G -> rat * G.
Variable gauss : G -> F * G.

(* ---- isotropic with size and out, random.py 47-80 -------------------------------- *)
(* memory layout of the array passed as `out` *)
Inductive layout : Type := COrder | FOrder | Strided.
(* its dtype *)
Inductive odt : Type := OF64 | OF32 | OOther.
Inductive outarg : Type := OutNone | OutNotArray | OutArray of layout & odt & nat & nat.
Inductive sizearg : Type := SizeNone | SizeInt of nat | SizePair of nat & nat.

(* what a call returns and, for `out`, what the array holds afterwards (its columns) *)
Inductive isoret : Type :=
  | RSampler of (nat -> nat -> G -> seq (seq F) * G)
  | RArray of seq (seq F)
  | RFilled of seq (seq F).

(* the first n * k draws laid out row by row in an n x k array, as its columns *)
Definition fill_rows (T : Type) (x0 : T) (d : G -> T * G) (n k : nat) (g : G) : seq (seq T) * G :=
  let: (s, g') := draws d (n * k) g in
  ([seq [seq nth x0 s (r * k + c) | r <- iota 0 n] | c <- iota 0 k], g').

(* _ISO_FUNCS applied to an array in C order *)
Definition iso_fill_c (p : dist) (n k : nat) (g : G) : seq (seq F) * G :=
  match p with
  | Rademacher => let: (cs, g') := fill_rows 0 unif n k g in
                  ([seq [seq ratr (rademacher_entry x) | x <- c] | c <- cs], g')
  | Normal => fill_rows 0 gauss n k g
  | Sphere => let: (cs, g') := fill_rows 0 gauss n k g in ([seq sphere_col c | c <- cs], g')
  end.

(* numpy's checks on `out`: contiguity first, then the dtype.  rng.random fills
   float64 only; standard_normal(dtype=out.dtype) float64 and float32 *)
Definition out_checks (p : dist) (l : layout) (t : odt) : option exn :=
  match l with
  | Strided => Some ValueError
  | _ => match t, p with
         | OF64, _ => None
         | OF32, Rademacher => Some TypeError
         | OF32, _ => None
         | OOther, _ => Some TypeError
         end
  end.

(* isotropic(size, pdf, seed, out).  Line 64: membership; 67-70: out wins over
   size; 74-80: the sampler, or the sampler applied to size (an int means one column) *)
Definition isotropic_call (sz : sizearg) (p : pdfarg F G) (out : outarg) (g : G) : res (isoret * G) :=
  match p with
  | PCall _ => Err AssertionError
  | PName s =>
    match lookup s ISO_DISTRIBUTIONS with
    | None => Err AssertionError
    | Some d =>
      match out with
      | OutNotArray => Err AssertionError
      | OutArray l t n k =>
        match out_checks d l t with
        | Some e => Err e
        | None => let: (cs, g') := if l is COrder then iso_fill_c d n k g else iso_fill unif gauss d n k g in
                  Ok (RFilled cs, g')
        end
      | OutNone =>
        match sz with
        | SizeNone => Ok (RSampler (iso_fill unif gauss d), g)
        | SizeInt n => let: (cs, g') := iso_fill unif gauss d n 1 g in Ok (RArray cs, g')
        | SizePair n k => let: (cs, g') := iso_fill unif gauss d n k g in Ok (RArray cs, g')
        end
      end
    end
  end.

(* ---- class Isotropic, random.py 100-142 ------------------------------------------- *)
(* a stored double: an exact rational (descendants of uniform draws) or a real *)
Inductive fl : Type := FRat of rat | FRe of F.
Definition fval (v : fl) : F := match v with FRat q => ratr q | FRe x => x end.
Definition fl_double (v : fl) : fl := match v with FRat q => FRat (q * 2%:R) | FRe x => FRe (x * 2%:R) end.
(* np.floor; only reached on FRat *)
Definition fl_floor (v : fl) : fl := match v with FRat q => FRat (floorq q) | FRe x => FRe x end.
Definition fl_dec (v : fl) : fl := match v with FRat q => FRat (q - 1) | FRe x => FRe (x - 1) end.

Definition cell : Type := (nat * nat)%type. (* row, column *)

(* What the worker threads share: the array self.values, the generators, and
   (indexed by task) the temporaries `c` of _sphere_inplace, one entry per column. *)
Record shared := Shared { cells : cell -> fl; gens : nat -> G; norms : nat -> nat -> F }.

(* Atomic element operations of the ufuncs and generator methods; the first
   argument is the generator or the task the operation belongs to. *)
Inductive op : Type :=
  | ODraw of (G -> fl * G) & nat & cell      (* out[cell] = draw(rng_i) *)
  | OMap of (fl -> fl) & cell                (* out[cell] = f(out[cell]) *)
  | OZero of nat & nat                       (* c[col] = 0 *)
  | OSq of nat & cell                        (* c[col] += out[cell]**2 *)
  | ORoot of nat & nat                       (* c[col] = sqrt(c[col]) *)
  | ODiv of nat & cell.                      (* out[cell] = out[cell] / c[col] *)

Definition upd (T : eqType) (U : Type) (f : T -> U) (x : T) (v : U) : T -> U :=
  fun y => if y == x then v else f y.

Definition exec (o : op) (s : shared) : shared :=
  match o with
  | ODraw d i p => let: (v, g) := d (gens s i) in
                   Shared (upd (cells s) p v) (upd (gens s) i g) (norms s)
  | OMap f p => Shared (upd (cells s) p (f (cells s p))) (gens s) (norms s)
  | OZero i c => Shared (cells s) (gens s) (upd (norms s) i (upd (norms s i) c 0))
  | OSq i p => Shared (cells s) (gens s)
                 (upd (norms s) i (upd (norms s i) p.2 (norms s i p.2 + fval (cells s p) ^+ 2)))
  | ORoot i c => Shared (cells s) (gens s) (upd (norms s) i (upd (norms s i) c (Num.sqrt (norms s i c))))
  | ODiv i p => Shared (upd (cells s) p (FRe (fval (cells s p) / norms s i p.2))) (gens s) (norms s)
  end.

Definition draw_unif (g : G) : fl * G := let: (x, g') := unif g in (FRat x, g').
Definition draw_gauss (g : G) : fl * G := let: (x, g') := gauss g in (FRe x, g').

(* the cells of out[:, lo:hi] in memory order (Fortran order, line 130) *)
Definition block (n lo hi : nat) : seq cell := [seq (r, c) | c <- iota lo (hi - lo), r <- iota 0 n].

(* self.iso(rng_i, out=values[:, lo:hi]) as a sequence of atomic operations, lines 22-41 *)
Definition task (p : dist) (n i lo hi : nat) : seq op :=
  let cs := block n lo hi in
  match p with
  | Rademacher => map (ODraw draw_unif i) cs ++ map (OMap fl_double) cs ++ map (OMap fl_floor) cs
                  ++ map (OMap fl_double) cs ++ map (OMap fl_dec) cs
  | Normal => map (ODraw draw_gauss i) cs
  | Sphere => map (ODraw draw_gauss i) cs
              ++ map (OZero i) (iota lo (hi - lo)) ++ map (OSq i) cs ++ map (ORoot i) (iota lo (hi - lo))
              ++ map (ODiv i) cs
              ++ map (OMap (fun v => FRe (fval v * Num.sqrt n%:R))) cs
  end.

Record iso_obj := IsoObj {
  i_pdf : dist; i_threads : nat; i_rows : nat; i_cols : nat; i_step : nat;
  i_gens : nat -> G; i_values : cell -> fl }.

(* rng.spawn(k): child generators *)
Variable spawn : G -> nat -> nat -> G.
Variable cpu_count : nat.

(* __init__, lines 101-131.  Line 108 is a dictionary lookup, so an unknown name
   is a KeyError and the assert of line 109 never fires.  ThreadPoolExecutor
   rejects fewer than one worker; shape[1] needs two dimensions.  The ceiling
   of the quotient is exact for fewer than 2^53 columns. *)
Definition iso_init (size : seq nat) (name : string) (threads : option int) (g : G) : res iso_obj :=
  match lookup name ISO_DISTRIBUTIONS with
  | None => Err KeyError
  | Some p =>
    let t := if threads is Some t then t else cpu_count%:Z in
    let gs := if t == 1 then (fun=> g) else spawn g `|t|%N in
    if t <= 0 then Err ValueError else
    match size with
    | [:: n; k] => Ok (IsoObj p `|t|%N n k ((k + `|t|%N).-1 %/ `|t|%N) gs (fun=> FRe 0))
    | _ => Err IndexError
    end
  end.

(* numpy slice bounds out[:, i*step:(i+1)*step] *)
Definition blo (o : iso_obj) (i : nat) : nat := minn (i * i_step o) (i_cols o).
Definition bhi (o : iso_obj) (i : nat) : nat := minn (i.+1 * i_step o) (i_cols o).

Definition tasks (o : iso_obj) : seq (seq op) :=
  [seq task (i_pdf o) (i_rows o) i (blo o i) (bhi o i) | i <- iota 0 (i_threads o)].

(* one worker executes one atomic operation of task i (nothing if it is done) *)
Definition sched_step (st : shared * seq (seq op)) (i : nat) : shared * seq (seq op) :=
  match nth [::] st.2 i with
  | [::] => st
  | o :: os => (exec o st.1, set_nth [::] st.2 i os)
  end.

(* fill(), lines 133-139, under a given interleaving; None when it leaves some
   task unfinished (`wait` has not returned).  `tmp` is the initial content of
   the temporaries. *)
Definition fill (o : iso_obj) (tmp : nat -> nat -> F) (sched : seq nat) : option iso_obj :=
  let: (s, ps) := foldl sched_step (Shared (i_values o) (i_gens o) tmp, tasks o) sched in
  if all (fun q => nilp q) ps then
    Some (IsoObj (i_pdf o) (i_threads o) (i_rows o) (i_cols o) (i_step o) (gens s) (cells s))
  else None.

(* the columns of self.values *)
Definition columns (o : iso_obj) : seq (seq F) :=
  [seq [seq fval (i_values o (r, c)) | r <- iota 0 (i_rows o)] | c <- iota 0 (i_cols o)].

(* ---- symmetric and haar, random.py 145-201 ------------------------------------------ *)
Variable qr_q : forall n, 'M[F]_n -> 'M[F]_n.       (* np.linalg.qr(A)[0] *)
Variable ortho_frozen : nat -> option exn.           (* scipy.stats.ortho_group(n): rejected sizes *)
Variable ortho_rvs : forall n, G -> 'M[F]_n * G.     (* its rvs() *)

(* scipy.spatial.distance.squareform of the vector of the strict upper triangle
   (row by row), with the diagonal assigned afterwards *)
Definition sq_index (n i j : nat) : nat := (i * n - (i * i.+1) %/ 2 + (j - i.+1))%N.
Definition squareform (n : nat) (v dg : seq F) : 'M[F]_n :=
  \matrix_(i, j) if (i == j :> nat) then nth 0 dg i
                 else nth 0 v (sq_index n (minn i j) (maxn i j)).

Inductive sdist : Type := DUniform | DNormal | DOther.

Definition unif_F (g : G) : F * G := let: (x, g') := unif g in (ratr x, g').
(* rng.uniform(size=n, low, high) *)
Definition unif_range (n : nat) (lo hi : F) (g : G) : seq F * G :=
  let: (s, g') := draws unif_F n g in ([seq lo + (hi - lo) * x | x <- s], g').

(* Lines 164-180; ew is 1-d.  squareform maps an empty vector to a 1 x 1 matrix,
   so for n = 0 the assignment of the diagonal fails to broadcast.  The matrix
   product fails unless ew has length n. *)
Definition symmetric (n : nat) (d : sdist) (pd : bool) (ew : option (seq F)) (g : G) : res ('M[F]_n * G) :=
  let N := (n * n.-1 %/ 2)%N in
  match (match d with
         | DUniform => Some (draws unif_F N g)
         | DNormal => Some (draws gauss N g)
         | DOther => None end) with
  | None => Err ValueError
  | Some (v, g1) =>
    let: (dg, g2) := draws unif_F n g1 in
    if n == 0%N then Err ValueError else
    let Q := qr_q (squareform n v dg) in
    let: (e, g3) := match ew with
                    | None => unif_range n (if pd then 0 else -1) 1 g2
                    | Some e => (e, g2)
                    end in
    if size e != n then Err ValueError else
    let A := Q *m diag_mx (\row_i nth 0 e i) *m Q^T in
    let A := 2%:R^-1 *: (A + A^T) in
    Ok (A, g3)
  end.

(* Lines 194-201 *)
Definition haar (n : nat) (ew : option (seq F)) (g : G) : res ('M[F]_n * G) :=
  if ortho_frozen n is Some e then Err e else
  let: (e, g1) := match ew with
                  | None => unif_range n (-1) 1 g
                  | Some e => (e, g)
                  end in
  if size e != n then Err AssertionError else
  let ev := [seq nth 0 e i | i <- iota 0 n] in
  let: (U, g2) := ortho_rvs n g1 in
  Ok (U *m diag_mx (\row_i nth 0 ev i) *m U^T, g2).
End Rand.
