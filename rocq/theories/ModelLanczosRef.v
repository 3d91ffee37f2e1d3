(* Model of the two Lanczos implementations in pure Python that /repo/src/primate/lanczos.py keeps beside the native
   kernel: _orth_vector and _lanczos_recurrence (196-238), and the baseline _lanczos_py (172-192).

   Results are `Ok (Some x)`, an exception, or `Ok None`: some number is not finite (0/0) and the remaining contents
   of the arrays are not modelled. *)
From mathcomp Require Import all_ssreflect all_algebra.
From Verif Require Import Base ModelLanczos.
Set Implicit Arguments.
Unset Strict Implicit.
Unset Printing Implicit Defensive.
Import Order.TTheory GRing.Theory Num.Theory.
Local Open Scope ring_scope.

Section Ref.
Variable F : rcfType.
(* np.finfo(dtype).eps *)
Variable eps : F.

(* np.dot, x - c * y, np.linalg.norm on vectors of equal length *)
Definition npdot (x y : seq F) : F := \sum_(p <- zip x y) p.1 * p.2.
Definition npsubs (x : seq F) (c : F) (y : seq F) : seq F := [seq p.1 - c * p.2 | p <- zip x y].
Definition npnorm (x : seq F) : F := Num.sqrt (\sum_(a <- x) a ^+ 2).
(* A @ x *)
Definition npmul (n : nat) (A : 'M[F]_n) (x : seq F) : seq F := [seq \sum_j A i j * x`_j | i <- enum 'I_n].

(* Q as the list of its columns; integers are Python's: i % m has the sign of m *)
Definition npcol (Q : seq (seq F)) (i : nat) : seq F := nth [::] Q i.

(* _orth_vector, 196-207: iterations c, c+1, .., p-1 *)
Fixpoint orth_ref_loop (tol : F) (U : seq (seq F)) (start : int) (diff : int) (r c : nat) (v : seq F) : seq F :=
  if r is r'.+1 then
    let i := absz ((start + c%:Z * diff) %% (size U)%:Z)%Z in                     (* 203 *)
    let u_norm := npnorm (npcol U i) ^+ 2 in                                   (* 204 *)
    let s_proj := npdot v (npcol U i) in                                       (* 205 *)
    orth_ref_loop tol U start diff r' c.+1
      (if (tol < u_norm) && (tol < `|s_proj|) then npsubs v (s_proj / u_norm) (npcol U i) else v)  (* 206-207 *)
  else v.
Definition orth_ref (n : nat) (v : seq F) (U : seq (seq F)) (start p : int) (reverse : bool) : seq F :=
  orth_ref_loop (2%:R * eps * Num.sqrt n%:R) U start (if reverse then -1 else 1)
    (if 0 < p then `|p|%N else 0%N) 0 v.

(* _lanczos_recurrence, 210-238.  Loop state: alpha, beta, Q and pos. *)
Record rst : Type := RSt { r_alpha : seq F; r_beta : seq F; r_Q : seq (seq F) }.

Fixpoint ref_loop (n : nat) (A : 'M[F]_n) (tol : F) (deg orth : int) (ncv : nat) (r j p c nx : nat) (st : rst)
  : res (option rst) :=
  if r is r'.+1 then
    let: RSt al be Q := st in
    let v := npmul A (npcol Q c) in                                            (* 223 *)
    let v := npsubs v be`_j (npcol Q p) in                                     (* 224 *)
    let a := npdot (npcol Q c) v in
    let al := set_nth 0 al j a in                                              (* 225 *)
    let v := npsubs v a (npcol Q c) in                                         (* 226 *)
    let v := if 0 < orth then orth_ref n v Q c%:Z orth true else v in          (* 228-229 *)
    let b := npnorm v in
    let be := set_nth 0 be j.+1 b in                                           (* 231 *)
    if (b < tol) || (j.+1%:Z == deg) then Ok (Some (RSt al be Q))              (* 232-233 *)
    else if (ncv <= nx)%N then Err IndexError                                  (* 235 *)
    else if b == 0 then Ok None
    else ref_loop A tol deg orth ncv r' j.+1 c nx (nx.+1 %% ncv)
           (RSt al be (set_nth [::] Q nx [seq y / b | y <- v]))                (* 235-236 *)
  else Ok (Some st).

(* The arguments V and ncv come as in the kernel; V is ignored. *)
Definition lanczos_ref (n : nat) (A : 'M[F]_n) (q : seq F) (deg : int) (rtol : F) (orth : int) (ncv : int)
  : res (option (seq F * seq F * seq (seq F))) :=
  if ncv < 0 then Err ValueError                                               (* 215: np.zeros *)
  else if ncv == 0 then Err IndexError                                         (* 217 *)
  else
  let k := `|ncv|%N in
  if (size q != n) && (size q != 1%N) then Err ValueError                      (* 217: broadcasting *)
  else if deg < 0 then Err ValueError                                          (* 218-219: np.zeros *)
  else if npnorm q == 0 then Ok None
  else
  let u := [seq x / npnorm q | x <- q] in
  let Q := set_nth [::] (nseq k (nseq n 0)) 0 (if size q == n then u else nseq n u`_0) in
  match ref_loop A (Num.sqrt n%:R * rtol) deg orth k `|deg|%N 0 k.-1 0 1
          (RSt (nseq `|deg|%N 0) (nseq `|deg|.+1 0) Q) with
  | Err e => Err e
  | Ok None => Ok None
  | Ok (Some st) => Ok (Some (r_alpha st, take `|deg|%N (r_beta st), r_Q st))  (* 238 *)
  end.

(* _lanczos_py, 172-192.  np.isclose(b, tol) with its default tolerances. *)
Definition isclose (b tol : F) : bool := `|b - tol| <= 10%:R ^- 8 + 10%:R ^- 5 * `|tol|.

Fixpoint base_loop (n : nat) (A : 'M[F]_n) (tol : F) (r i : nat) (qp qc al be : seq F) : option (seq F * seq F) :=
  if r is r'.+1 then
    let qn := npsubs (npmul A qc) be`_i qp in                                  (* 184 *)
    let a := npdot qn qc in
    let al := set_nth 0 al i a in                                              (* 185 *)
    let qn := npsubs qn a qc in                                                (* 186 *)
    let b := npnorm qn in
    let be := set_nth 0 be i.+1 b in                                           (* 187 *)
    if isclose b tol then Some (al, be)                                        (* 188-189 *)
    else if (b == 0) && (0 < r')%N then None                                   (* 190: 0/0, used in the next round *)
    else base_loop A tol r' i.+1 qc [seq x / b | x <- qn] al be                (* 190-191 *)
  else Some (al, be).

(* the float32 arrays alpha, beta and qp round; exact here *)
Definition lanczos_base (n : nat) (A : 'M[F]_n) (v0 : seq F) (k : int) (tol : F) : res (option (seq F * seq F)) :=
  if ~~ (k <= n%:Z) then Err AssertionError                                    (* 176 *)
  else if size v0 != n then Err AssertionError                                 (* 177 *)
  else if (npnorm v0 == 0) && (0 < k) then Ok None                             (* 182 *)
  else Ok (base_loop A tol (if 0 < k then `|k|%N else 0%N) 0 (nseq n 0) [seq x / npnorm v0 | x <- v0]
             (nseq n.+1 0) (nseq n.+1 0)).
End Ref.
