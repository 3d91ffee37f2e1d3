(* Model of the native Lanczos kernel (/repo/src/primate/include/lanczos.h) and
   of its Python front end (/repo/src/primate/lanczos.py).

   The kernel works on raw buffers.  Every read and write is bounds-checked and
   every Eigen vector operation checks that its operands have equal length;
   None stands for undefined behaviour (an access outside a buffer, a length
   mismatch).  Integers are unbounded, numbers are exact. *)
From mathcomp Require Import all_ssreflect all_algebra.
From Verif Require Import Base.
Set Implicit Arguments.
Unset Strict Implicit.
Unset Printing Implicit Defensive.
Import Order.TTheory GRing.Theory Num.Theory.
Local Open Scope ring_scope.

(* ---- integers ---------------------------------------------------------------- *)
(* C++ a % b: truncated towards zero *)
Definition crem (a b : int) : int := a - b * (sgz a * sgz b * (`|a| %/ `|b|)%N%:Z).
(* lanczos.h 34-36 *)
Definition cmod (a b : int) : int := crem (b + crem a b) b.
(* np.clip(x, lo, hi) = minimum(maximum(x, lo), hi) *)
Definition npclip (x lo hi : int) : int := Num.min (Num.max x lo) hi.
(* lanczos.h 71-73, 77-79, 84-87 (dim.first = n) *)
Definition param_deg (deg : int) (n : nat) : int := Num.max 1 (Num.min deg n%:Z).
Definition param_ncv (ncv deg : int) (n : nat) : int := Num.min (Num.max ncv 2) (Num.min deg n%:Z).
Definition param_orth (orth deg ncv : int) : int :=
  if (orth < 0) || (deg < orth) then Num.min deg (ncv - 1) else Num.min orth (ncv - 1).

Section Kernel.
Variable F : rcfType.
(* std::numeric_limits<F>::epsilon() *)
Variable eps : F.

(* ---- buffers --------------------------------------------------------------- *)
Definition rd (b : seq F) (i : nat) : option F := if (i < size b)%N then Some b`_i else None.
Definition wr (b : seq F) (i : nat) (x : F) : option (seq F) :=
  if (i < size b)%N then Some (set_nth 0 b i x) else None.
Definition rdv (b : seq F) (off len : nat) : option (seq F) :=
  if (off + len <= size b)%N then Some (take len (drop off b)) else None.
Definition wrv (b : seq F) (off : nat) (xs : seq F) : option (seq F) :=
  if (off + size xs <= size b)%N then Some (take off b ++ xs ++ drop (off + size xs) b) else None.

(* ---- Eigen vector expressions ---------------------------------------------- *)
Definition sqnorm (x : seq F) : F := \sum_(a <- x) a ^+ 2.
Definition edot (x y : seq F) : option F :=
  if size x == size y then Some (\sum_(p <- zip x y) p.1 * p.2) else None.
(* x -= c * y *)
Definition esubs (x : seq F) (c : F) (y : seq F) : option (seq F) :=
  if size x == size y then Some [seq p.1 - c * p.2 | p <- zip x y] else None.
(* x.normalized(): x itself when its norm is zero *)
Definition enormalized (x : seq F) : seq F :=
  if 0 < sqnorm x then [seq a / Num.sqrt (sqnorm x) | a <- x] else x.

(* Q.col(c) of the column-major n x ncv matrix stored in b *)
Definition rcol (n : nat) (b : seq F) (c : nat) : option (seq F) := rdv b (c * n) n.
Definition wcol (n : nat) (b : seq F) (c : nat) (xs : seq F) : option (seq F) :=
  if size xs == n then wrv b (c * n) xs else None.

(* A.matvec(inp, out), eigen_operators.h 25-31: reads A.cols() entries at the
   pointer inp, writes A.rows() entries at out *)
Definition apply_mx (n m : nat) (A : 'M[F]_(n, m)) (x : seq F) : seq F :=
  [seq \sum_j A i j * x`_j | i <- enum 'I_n].

(* ---- orth_vector, lanczos.h 44-66 ------------------------------------------- *)
Fixpoint orth_loop (tol : F) (n ncv : nat) (V : seq F) (diff : int) (p : nat) (i : nat) (v : seq F) : option (seq F) :=
  if p is p'.+1 then
    obind (fun u =>
    obind (fun s =>
    obind (fun v' => orth_loop tol n ncv V diff p' `|cmod (i%:Z + diff) ncv%:Z|%N v')
      (if (tol < sqnorm u) && (tol < `|s|) then esubs v (s / sqnorm u) u else Some v))
      (edot v u))
      (rcol n V i)
  else Some v.

Definition orth_vector (n ncv : nat) (V : seq F) (start p : int) (reverse : bool) (v : seq F) : option (seq F) :=
  orth_loop (2%:R * eps * Num.sqrt n%:R) n ncv V (if reverse then -1 else 1)
    (if 0 < p then `|p|%N else 0%N) `|cmod start ncv%:Z|%N v.

(* ---- lanczos_recurrence, lanczos.h 92-149 ------------------------------------ *)
Record kst : Type := KSt { k_q : seq F; k_alpha : seq F; k_beta : seq F; k_V : seq F }.

(* one iteration, 125-147; the flag says `break` *)
Definition kstep (n m : nat) (A : 'M[F]_(n, m)) (tol : F) (deg orth : int) (ncv j p c nx : nat) (st : kst)
  : option (kst * bool) :=
  let: KSt q al be V := st in
  obind (fun x =>                                                   (* 127 *)
  obind (fun q1 =>
  obind (fun bj => obind (fun qp => obind (fun v1 => obind (fun v2 => (* 128 *)
  obind (fun qc => obind (fun a =>                                  (* 129 *)
  obind (fun al' =>
  obind (fun v3 =>                                                  (* 130 *)
  obind (fun v4 =>                                                  (* 133-136 *)
  let b := Num.sqrt (sqnorm v4) in                                  (* 139 *)
  obind (fun be' =>
  obind (fun q' =>
  if (b < tol) || (j%:Z + 1 == deg) then Some (KSt q' al' be' V, true)   (* 140-142 *)
  else obind (fun V' => Some (KSt q' al' be' V', false))
         (wcol n V nx [seq y / b | y <- v4]))                       (* 143 *)
  (wrv q1 0 v4))
  (wr be j.+1 b))
  (if 0 < orth then orth_vector n ncv V c%:Z orth true v3 else Some v3))
  (esubs v2 a qc))
  (wr al j a)) (edot qc v2)) (rcol n V c))
  (esubs v1 bj qp)) (rdv q1 0 m)) (rcol n V p)) (rd be j))
  (wrv q 0 (apply_mx A x)))
  (rdv V (c * n) m).

Fixpoint kloop (n m : nat) (A : 'M[F]_(n, m)) (tol : F) (deg orth : int) (ncv : nat) (r j p c nx : nat) (st : kst)
  : option kst :=
  if r is r'.+1 then
    obind (fun s : kst * bool => if s.2 then Some s.1
            else kloop A tol deg orth ncv r' j.+1 c nx `|cmod (j%:Z + 2) ncv%:Z|%N s.1)
      (kstep A tol deg orth ncv j p c nx st)
  else Some st.

Definition lanczos_recurrence (n m : nat) (A : 'M[F]_(n, m)) (q : seq F) (deg : int) (rtol : F) (orth : int)
    (alpha beta V : seq F) (ncv : nat) : option kst :=
  let p := (ncv - 1)%N in
  obind (fun V1 =>                                                  (* 119 *)
  obind (fun x => obind (fun V2 =>                                  (* 120 *)
  obind (fun be => kloop A (Num.sqrt n%:R * rtol) deg orth ncv (if 0 < deg then `|deg|%N else 0%N) 0 p 0 1
                     (KSt q alpha be V2))
  (wr beta 0 0))                                                    (* 121 *)
  (wcol n V1 0 (enormalized x))) (rdv q 0 m))
  (wcol n V p (nseq n 0)).

End Kernel.

(* ---- overload resolution of the extension module ----------------------------- *)
(* _lanczos.cpp 86-112.  pybind11 tries the overloads in order, first without
   implicit conversions, then with them.  An argument of type py_array<F>&
   binds the caller's array only when its dtype is F; a converted argument is a
   copy, so what the kernel writes is lost.  An argument of type F is loaded
   without conversion only from a Python float (not from an int such as 0, nor
   from numpy.float32). *)
Inductive dty : Type := F32 | F64 | OtherDtype.
Definition dty_eqb (a b : dty) : bool :=
  match a, b with F32, F32 | F64, F64 | OtherDtype, OtherDtype => true | _, _ => false end.
(* the operand: array, sparse matrix, or other object, the latter with the dtype
   of its product with a double-precision vector *)
Inductive okind : Type := KDense | KSparse | KObject of dty.
Inductive wrapper : Type := WDense | WSparse | WObject.
Definition overloads : seq (dty * wrapper) :=
  [:: (F32, WDense); (F64, WDense); (F32, WSparse); (F64, WSparse); (F32, WObject); (F64, WObject)].

(* the operand: dense arrays must have the exact dtype unless conversions are
   allowed; the sparse caster turns anything scipy.sparse.csc_matrix accepts;
   objects are taken as they are *)
Definition load_op (convert : bool) (k : okind) (dA : dty) (o : dty * wrapper) : bool :=
  match o.2, k with
  | WDense, KDense => convert || dty_eqb dA o.1
  | WDense, _ => false
  | WSparse, KObject _ => false
  | WSparse, _ => true
  | WObject, _ => true
  end.

(* an array argument: loaded as an alias, as a converted copy, or not at all *)
Definition load_arr (convert : bool) (d : dty) (o : dty * wrapper) : option bool :=
  if dty_eqb d o.1 then Some true else if convert then Some false else None.

Record binding : Type := Binding { b_ov : dty * wrapper; b_v : bool; b_out : bool }.

(* dA: dtype of the operand and of the output arrays; dv: of the start vector;
   fr: rtol is a Python float *)
Definition try_overload (convert : bool) (k : okind) (dv dA : dty) (fr : bool) (o : dty * wrapper) : option binding :=
  if load_op convert k dA o && (convert || fr) then
    match load_arr convert dv o, load_arr convert dA o with
    | Some av, Some ao => Some (Binding o av ao)
    | _, _ => None
    end
  else None.

Definition resolve (k : okind) (dv dA : dty) (fr : bool) : option binding :=
  match pmap (try_overload false k dv dA fr) overloads with
  | b :: _ => Some b
  | [::] => ohead (pmap (try_overload true k dv dA fr) overloads)
  end.

(* dtype of A @ np.zeros(..), lanczos.py 80: numpy promotes to double *)
Definition product_dtype (k : okind) : dty := if k is KObject d then d else F64.

(* ---- lanczos(), lanczos.py 25-117 --------------------------------------------- *)
Section Front.
Variable F : rcfType.
Variable eps : F.
Variable G : Type.
Variable unif : G -> rat * G.

(* optional work arrays in **kwargs; the Q array is F-contiguous and given with
   its shape.  Their dtype is f_dtype (asserted for alpha and beta, assumed for
   Q).  w_float: the rtol argument is a Python float. *)
Record lwork : Type := LWork { w_alpha : option (seq F); w_beta : option (seq F);
  w_Q : option (nat * nat * seq F); w_float : bool }.

(* rng.uniform(size, low=-1, high=1), 89 *)
Fixpoint unif_vec (k : nat) (g : G) : seq F * G :=
  if k is k'.+1 then
    let: (u, g1) := unif g in
    let: (us, g2) := unif_vec k' g1 in
    ((-1 + (1 - -1) * ratr u) :: us, g2)
  else ([::], g).

Record lbuf : Type := LBuf { o_deg : nat; o_ncv : nat; o_alpha : seq F; o_beta : seq F; o_Q : seq F }.

(* lines 79-109, up to and including the native call.  dA is the dtype of the
   operator (f_dtype), dt that of the start vector. *)
Definition lanczos_call (n m : nat) (A : 'M[F]_(n, m)) (k : okind) (dA : dty) (v0 : option (seq F)) (deg : option int)
    (rtol : F) (orth : int) (return_basis : bool) (dtype : option dty) (w : lwork) (g : G) : option (res lbuf) :=
  let deg := if deg is Some d then Num.min d m%:Z else m%:Z in              (* 79 *)
  let dt := if dtype is Some d then d else product_dtype k in               (* 80 *)
  if ~~ (0 < deg) then Some (Err AssertionError)                            (* 81 *)
  else if (if dA is OtherDtype then true else false) then Some (Err AssertionError)  (* 85 *)
  else
    let orth := if (orth < 0) || (deg < orth) then deg else orth in         (* 88 *)
    let ncv := if return_basis then deg else npclip orth 2 deg in           (* 89 *)
    let dn := `|deg|%N in let cn := `|ncv|%N in
    let v := if v0 is Some x then x else (unif_vec m g).1 in                (* 93-97 *)
    if size v != m then Some (Err AssertionError)                           (* 98 *)
    else
      let alpha := if w_alpha w is Some a then a else nseq dn.+1 0 in
      let beta := if w_beta w is Some b then b else nseq dn.+1 0 in
      let: (qr, qc, Q) := if w_Q w is Some q then q else (n, cn, nseq (n * cn) 0) in
      if (size alpha != dn.+1) || (size beta != dn.+1) || (qr != n) || (qc != cn)
      then Some (Err AssertionError)                                        (* 104-106 *)
      else match resolve k dt dA (w_float w) with
      | None => Some (Err TypeError)
      | Some bd =>
          match lanczos_recurrence eps A v deg rtol orth alpha beta Q cn with   (* 109 *)
          | None => None
          | Some st =>
              Some (Ok (if b_out bd then LBuf dn cn (k_alpha st) (k_beta st) (k_V st)
                        else LBuf dn cn alpha beta Q))
          end
      end.

(* scipy.sparse.spdiags(data, diags, m, n) as a dense array: entry (i, j) of
   the diagonal d = j - i is data[k][j] *)
Definition spdiags (data : seq (seq F)) (diags : seq int) (m n : nat) : seq (seq F) :=
  mkseq (fun i => mkseq (fun j =>
    \sum_(p <- zip data diags | p.2 == j%:Z - i%:Z) p.1`_j) n) m.

Inductive lret : Type :=
  | LPair of seq F & seq F
  | LPairQ of (seq F * seq F) & seq F
  | LMat of seq (seq F)
  | LMatQ of seq (seq F) & seq F.

(* lines 112-117 *)
Definition lanczos_format (sparse_mat return_basis : bool) (b : lbuf) : lret :=
  let: LBuf d _ al be Q := b in
  if sparse_mat then
    let T := spdiags [:: rot 1 be; al; be] [:: -1; 0; 1] d d in
    if return_basis then LMatQ T Q else LMat T
  else
    let a := take d al in let b := drop 1 (take d be) in
    if return_basis then LPairQ (a, b) Q else LPair a b.

Definition lanczos (n m : nat) (A : 'M[F]_(n, m)) (k : okind) (dA : dty) (v0 : option (seq F)) (deg : option int)
    (rtol : F) (orth : int) (sparse_mat return_basis : bool) (dtype : option dty) (w : lwork) (g : G) : option (res lret) :=
  match lanczos_call A k dA v0 deg rtol orth return_basis dtype w g with
  | None => None
  | Some (Err e) => Some (Err e)
  | Some (Ok b) => Some (Ok (lanczos_format sparse_mat return_basis b))
  end.

(* ---- rayleigh_ritz, 120-164 ---------------------------------------------------- *)
(* eigh_tridiag / eigvalsh_tridiag on (a, b); `method` is never used *)
Variable eigh : seq F -> seq F -> seq F * seq (seq F).
Variable eigvalsh : seq F -> seq F -> seq F.
Record ritz : Type := Ritz { rr_values : seq F; rr_vectors : option (seq (seq F)); rr_basis : option (seq F) }.

(* The extra keyword arguments (passed on to lanczos) are v0, rtol, orth,
   return_basis and dtype; sparse_mat=True makes the unpacking fail and is left
   out. *)
Definition rayleigh_ritz (n m : nat) (A : 'M[F]_(n, m)) (k : okind) (dA : dty) (deg : option int)
    (return_eigenvectors : bool) (v0 : option (seq F)) (rtol : F) (orth : int) (return_basis : bool)
    (dtype : option dty) (fr : bool) (g : G) : option (res ritz) :=
  let deg := if deg is Some d then Num.min d m%:Z else m%:Z in
  if ~~ (0 < deg) then Some (Err AssertionError)
  else
    let deg := npclip deg 2 n%:Z in
    match lanczos_call A k dA v0 (Some deg) rtol orth return_basis dtype (LWork None None None fr) g with
    | None => None
    | Some (Err e) => Some (Err e)
    | Some (Ok b) =>
        let a := take (o_deg b) (o_alpha b) in
        let bb := drop 1 (take (o_deg b) (o_beta b)) in
        let Q := if return_basis then Some (o_Q b) else None in
        Some (Ok (if return_eigenvectors then let: (rw, Y) := eigh a bb in Ritz rw (Some Y) Q
                  else Ritz (eigvalsh a bb) None Q))
    end.
End Front.

(* ---- _validate_lanczos, 12-22 ---------------------------------------------------- *)
Section Validate.
Variable F : rcfType.
(* atol and rtol may be None; NaN is modelled *)
Definition validate_lanczos (N ncv deg orth : int) (atol rtol : option (xnum F))
  : res (int * int * int * int * xnum F * xnum F) :=
  let deg := if deg < 0 then N else npclip deg 1 N in
  let ncv := npclip ncv 2 (Num.min deg N) in
  let orth := Num.max 0 (npclip orth 0 (ncv - 2)) in
  let scaled := if atol is Some x then
      (if N == 0 then Err ZeroDivisionError
       else Ok (match x with Fin y => Fin (y / N%:~R) | PInf => if 0 < N then PInf else NInf
                | NInf => if 0 < N then NInf else PInf | NaN => NaN end))
    else Ok (Fin 0) in
  bind scaled (fun at_ =>
    let rt := if rtol is Some x then x else Fin 0 in
    if ~~ [&& 2 <= ncv, orth + 2 <= ncv & ncv <= deg] then Err AssertionError
    else if (if at_ is NaN then true else false) then Err AssertionError
    else Ok (N, ncv, deg, orth, at_, rt)).
End Validate.
