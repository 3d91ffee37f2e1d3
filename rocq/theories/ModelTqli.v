(* Model of /repo/src/primate/tqli.py (QL iteration with implicit shifts) and of
   /repo/src/primate/tridiag.py (front end of the tridiagonal eigensolvers).

   Numbers are exact.  In exact arithmetic the test `abs(e[m]) + dd == dd` (line
   45) says that e[m] is zero.  A division by zero in the shift (line 61) gives
   an infinity, after which NaNs spread; the model stops there with TInf.  (The
   other divisions, lines 58 and 73, have non-zero divisors: 54, 68.)

   Each state carries two ghost flags, which no code reads: x_aband says that
   some sweep was given up at line 84-85, x_capped that the iteration for some
   eigenvalue was ended by line 54-56. *)
From Coq Require Import String.
From mathcomp Require Import all_ssreflect all_algebra.
From Verif Require Import Base.
Set Implicit Arguments.
Unset Strict Implicit.
Unset Printing Implicit Defensive.
Import Order.TTheory GRing.Theory Num.Theory.
Local Open Scope string_scope.
Local Open Scope ring_scope.

Section Tqli.
Variable F : rcfType.

(* tqli.py 5-7 *)
Definition tq_sign (a b : F) : F := (1 < b)%R%:R - (a < 0)%R%:R + 1.
(* np.hypot *)
Definition hypot (a b : F) : F := Num.sqrt (a ^+ 2 + b ^+ 2).

(* the arrays; Z is the list of its rows, empty when no vectors are wanted *)
Record tqst : Type := TqSt { x_d : seq F; x_e : seq F; x_Z : seq (seq F); x_aband : bool; x_capped : bool }.

(* the split search, 42-48: first index m >= it with a negligible e[m], or n - 1 *)
Fixpoint split (d e : seq F) (k it : nat) : nat :=
  if k is k'.+1 then
    let dd := `|d`_it| + `|d`_it.+1| in
    if `|e`_it| + dd == dd then it else split d e k' it.+1
  else it.

(* 81-83 *)
Definition rot_row (i : nat) (s c : F) (row : seq F) : seq F :=
  let f := row`_i.+1 in
  let row' := set_nth 0 row i.+1 (s * row`_i + c * f) in
  set_nth 0 row' i (c * row'`_i - s * f).

(* the local variables of a sweep *)
Record sweep : Type := Sweep { w_s : F; w_c : F; w_p : F; w_g : F; w_r : F }.

(* 64-83, for i = it + k - 1 down to it *)
Fixpoint rotations (it m k : nat) (w : sweep) (d e : seq F) (Z : seq (seq F)) : sweep * seq F * seq F * seq (seq F) :=
  if k is k'.+1 then
    let i := (it + k')%N in
    let f := w_s w * e`_i in let b := w_c w * e`_i in                 (* 66 *)
    let r := hypot f (w_g w) in                                       (* 67 *)
    let e1 := set_nth 0 e i.+1 r in
    if r == 0 then                                                    (* 68-72 *)
      (Sweep (w_s w) (w_c w) (w_p w) (w_g w) r, set_nth 0 d i.+1 (d`_i.+1 - w_p w), set_nth 0 e1 m 0, Z)
    else
      let s := f / r in let c := w_g w / r in                         (* 73 *)
      let g := d`_i.+1 - w_p w in                                     (* 74 *)
      let r' := (d`_i - g) * s + 2%:R * c * b in                      (* 75 *)
      let p := s * r' in                                              (* 76 *)
      let d1 := set_nth 0 d i.+1 (g + p) in                           (* 77 *)
      rotations it m k' (Sweep s c p (c * r' - b) r') d1 e1 (map (rot_row i s c) Z)
  else (w, d, e, Z).

Inductive tqout : Type := TFuel | TInf | TOk of tqst.

(* `while True`, 40-90, for the eigenvalue number it; ii counts the sweeps.
   Running out of fuel is TFuel (C63 shows how much is enough). *)
Fixpoint ql (fuel n it : nat) (max_iter : int) (ii : nat) (x : tqst) : tqout :=
  if fuel is fuel'.+1 then
    let: TqSt d e Z ab cp := x in
    let m := split d e (n.-1 - it) it in
    if m != it then
      if (max_iter < ii%:Z) || (e`_it == 0) then TOk (TqSt d e Z ab true)          (* 54-56 *)
      else
        let g := (d`_it.+1 - d`_it) / (2%:R * e`_it) in                            (* 58 *)
        let r := hypot g 1 in                                                      (* 59 *)
        let g := d`_m - d`_it in                                                   (* 60 *)
        if g + tq_sign r g == 0 then TInf
        else
          let g := g + e`_it / (g + tq_sign r g) in                                (* 61 *)
          let: (w, d', e', Z') := rotations it m (m - it) (Sweep 1 1 0 g r) d e Z in  (* 63-83 *)
          if w_r w == 0 then ql fuel' n it max_iter ii.+1 (TqSt d' e' Z' true cp)  (* 84-85 *)
          else
            let d'' := set_nth 0 d' it (d'`_it - w_p w) in                         (* 86 *)
            let e'' := set_nth 0 (set_nth 0 e' it (w_g w)) m 0 in                  (* 87-88 *)
            ql fuel' n it max_iter ii.+1 (TqSt d'' e'' Z' ab cp)
    else TOk x                                                                     (* 89-90 *)
  else TFuel.

(* `for it in range(n)`, 37-90 *)
Fixpoint ql_all (fuel n : nat) (max_iter : int) (k it : nat) (x : tqst) : tqout :=
  if k is k'.+1 then
    match ql fuel n it max_iter 0 x with
    | TOk x' => ql_all fuel n max_iter k' it.+1 x'
    | o => o
    end
  else TOk x.

(* np.isclose(x, 0.0): |x| <= 1e-8 *)
Definition isclose0 (x : F) : bool := `|x| * 10%:R ^+ 8 <= 1.

(* tqli(d, e, Z, max_iter), 15-90 *)
Definition tqli (fuel : nat) (d e : seq F) (Z : seq (seq F)) (max_iter : int) : res tqout :=
  if size d != size e then Err AssertionError
  else if size e == 0%N then Err IndexError
  else if ~~ isclose0 e`_0 then Err AssertionError
  else Ok (ql_all fuel (size d) max_iter (size d) 0 (TqSt d (rcons (behead e) 0) Z false false)).

(* enough fuel for every call (C63_terminates) *)
Definition tq_fuel (max_iter : int) : nat := (`|Num.max max_iter 0|%N + 3)%N.

(* ---- tridiag.py ---------------------------------------------------------------- *)
(* scipy.linalg.eigvalsh_tridiagonal and eigh_tridiagonal on (d, e[1:]) *)
Variable lap_vals : seq F -> seq F -> res (seq F).
Variable lap_pairs : seq F -> seq F -> res (seq F * seq (seq F)).

(* eigenvalues only; eigenvalues and the rows of the matrix of eigenvectors;
   arrays with infinities and NaNs *)
Inductive eres : Type := EVals of seq F | EPairs of seq F & seq (seq F) | ENonFinite.

Definition eye (n : nat) : seq (seq F) := mkseq (fun i => mkseq (fun j => (i == j)%:R) n) n.

(* method == "mrrr", 9-11; Z is given by its rows, np.prod(Z.shape) == 0 when empty *)
Definition eigh_mrrr (d e : seq F) (Z : seq (seq F)) : res eres :=
  if nilp Z then bind (lap_vals d (behead e)) (fun w => Ok (EVals w))
  else bind (lap_pairs d (behead e)) (fun wy => Ok (EPairs wy.1 wy.2)).

(* method == "tqli", 12-14 *)
Definition eigh_tqli (d e : seq F) (Z : seq (seq F)) (maxiter : int) : res eres :=
  bind (tqli (tq_fuel maxiter) d e Z maxiter) (fun o =>
  Ok (if o is TOk x then (if nilp Z then EVals (x_d x) else EPairs (x_d x) (x_Z x)) else ENonFinite)).

(* tridiag.py 7-20; "auto" does not pass maxiter on *)
Definition eigh_internal (d e : seq F) (Z : seq (seq F)) (method : string) (maxiter : int) : res eres :=
  if String.eqb method "mrrr" then eigh_mrrr d e Z
  else if String.eqb method "tqli" then eigh_tqli d e Z maxiter
  else match eigh_mrrr d e Z with
       | Err LinAlgError => eigh_tqli d e Z 30
       | r => r
       end.

(* 38-43 and 57-62.  (The arrays are copied before anything is written.) *)
Definition tridiag_front (d e : seq F) (vectors : bool) (method : string) (maxiter : int) : res eres :=
  if ~~ [|| String.eqb method "tqli", String.eqb method "mrrr" | String.eqb method "auto"] then Err AssertionError
  else if ~~ ((size d == (size e).+1) || (size d == size e)) then Err AssertionError
  else
    let e := if (size e).+1 == size d then 0 :: e else e in
    eigh_internal d e (if vectors then eye (size d) else [::]) method maxiter.

(* tridiag.py 25-43 *)
Definition eigh_tridiag (d e : seq F) := tridiag_front d e true.
(* tridiag.py 46-62 *)
Definition eigvalsh_tridiag (d e : seq F) := tridiag_front d e false.
End Tqli.
