(* Which memory the functions write: array arguments live in a heap, arrays are
   views into buffers, copies allocate.  Covers tridiag.py, the native lanczos
   call, lanczos.py: lanczos, integrate.py: quadrature and MatrixFunction's _matvec
   and quad.  The numbers written are those of the pure models. *)
From Coq Require Import String.
From mathcomp Require Import all_ssreflect all_algebra.
From Verif Require Import Base ModelTqli ModelLanczos ModelQuadrature ModelSpecial ModelOperators.
Set Implicit Arguments.
Unset Strict Implicit.
Unset Printing Implicit Defensive.
Import Order.TTheory GRing.Theory Num.Theory.
Local Open Scope string_scope.
Local Open Scope ring_scope.

Section Heap.
Variable F : rcfType.

(* Buffers by address; the next free address is the number of buffers. *)
Definition heap : Type := seq (seq F).
Definition buf (h : heap) (a : nat) : seq F := nth [::] h a.
(* A 1-d view: an address and the positions of its elements (any offset and
   stride; broadcast views repeat positions).  A 2-d view: its rows. *)
Record ref : Type := Ref { r_at : nat; r_pos : seq nat }.
Record mref : Type := MRef { m_at : nat; m_rows : seq (seq nat) }.

Definition load (h : heap) (r : ref) : seq F := [seq (buf h (r_at r))`_i | i <- r_pos r].
Definition mload (h : heap) (r : mref) : seq (seq F) := [seq [seq (buf h (m_at r))`_i | i <- p] | p <- m_rows r].
(* element-wise assignment through a view *)
Fixpoint put_at (b : seq F) (ps : seq nat) (xs : seq F) : seq F :=
  match ps, xs with
  | p :: ps', x :: xs' => put_at (set_nth 0 b p x) ps' xs'
  | _, _ => b
  end.
Definition store (h : heap) (r : ref) (xs : seq F) : heap := set_nth [::] h (r_at r) (put_at (buf h (r_at r)) (r_pos r) xs).
Definition mstore (h : heap) (r : mref) (xs : seq (seq F)) : heap :=
  store h (Ref (m_at r) (flatten (m_rows r))) (flatten xs).

(* a new array with given contents *)
Definition alloc (h : heap) (xs : seq F) : heap * ref := (rcons h xs, Ref (size h) (iota 0 (size xs))).
Definition malloc (h : heap) (xs : seq (seq F)) : heap * mref :=
  (rcons h (flatten xs), MRef (size h) (reshape (shape xs) (iota 0 (size (flatten xs))))).
(* r.copy(), np.array(r), r.astype(dtype): always a new array *)
Definition copy (h : heap) (r : ref) : heap * ref := alloc h (load h r).
(* basic slices are views *)
Definition vslice (k : int) (r : ref) : ref := Ref (r_at r) (slice k (r_pos r)).
Definition vdrop (k : nat) (r : ref) : ref := Ref (r_at r) (drop k (r_pos r)).
Definition vtake (k : nat) (r : ref) : ref := Ref (r_at r) (take k (r_pos r)).

(* ---- tridiag.py ------------------------------------------------------------------ *)
Variable lap_vals : seq F -> seq F -> res (seq F).
Variable lap_pairs : seq F -> seq F -> res (seq F * seq (seq F)).
(* contents left behind when tqli raised an exception or divided by zero *)
Variable junk : seq F.

Inductive href : Type := HVals of ref | HPairs of ref & mref.

(* tqli.py 16-90 writes d, e and Z in place *)
Definition h_tqli (h : heap) (d e : ref) (Z : mref) (maxiter : int) : heap * outcome unit :=
  match tqli (tq_fuel maxiter) (load h d) (load h e) (mload h Z) maxiter with
  | Err x => (mstore (store (store h d junk) e junk) Z [:: junk], Raise x)
  | Ok (TOk x) => (mstore (store (store h d (x_d x)) e (x_e x)) Z (x_Z x), Ret tt)
  | Ok _ => (mstore (store (store h d junk) e junk) Z [:: junk], NonFin)
  end.

(* tridiag.py 9-11: LAPACK reads its arguments (overwrite_a is off) and returns new arrays *)
Definition h_mrrr (h : heap) (d e : ref) (Z : mref) : heap * outcome href :=
  if nilp (m_rows Z) then
    match lap_vals (load h d) (load h (vdrop 1 e)) with
    | Err x => (h, Raise x)
    | Ok w => let: (h, rw) := alloc h w in (h, Ret (HVals rw))
    end
  else
    match lap_pairs (load h d) (load h (vdrop 1 e)) with
    | Err x => (h, Raise x)
    | Ok (w, Y) => let: (h, rw) := alloc h w in let: (h, rY) := malloc h Y in (h, Ret (HPairs rw rY))
    end.

(* tridiag.py 12-14: the arguments themselves are returned *)
Definition h_etqli (h : heap) (d e : ref) (Z : mref) (maxiter : int) : heap * outcome href :=
  match h_tqli h d e Z maxiter with
  | (h, Ret _) => (h, Ret (if nilp (m_rows Z) then HVals d else HPairs d Z))
  | (h, Raise x) => (h, Raise x) | (h, NonFin) => (h, NonFin) | (h, Undef) => (h, Undef)
  end.

(* tridiag.py 7-20 *)
Definition h_internal (h : heap) (d e : ref) (Z : mref) (method : string) (maxiter : int) : heap * outcome href :=
  if String.eqb method "mrrr" then h_mrrr h d e Z
  else if String.eqb method "tqli" then h_etqli h d e Z maxiter
  else match h_mrrr h d e Z with
       | (h, Raise LinAlgError) => h_etqli h d e Z 30
       | r => r
       end.

(* tridiag.py 38-43 and 57-62 *)
Definition h_tridiag (h : heap) (d e : ref) (vectors : bool) (method : string) (maxiter : int) : heap * outcome href :=
  if ~~ [|| String.eqb method "tqli", String.eqb method "mrrr" | String.eqb method "auto"] then (h, Raise AssertionError)
  else if ~~ ((size (r_pos d) == (size (r_pos e)).+1) || (size (r_pos d) == size (r_pos e))) then (h, Raise AssertionError)
  else
    let: (h, e) := if (size (r_pos e)).+1 == size (r_pos d) then alloc h (0 :: load h e) else (h, e) in  (* 40, 59 *)
    let: (h, d) := copy h d in                                                                (* 41, 60 *)
    let: (h, e) := copy h e in
    let: (h, Z) := malloc h (if vectors then eye F (size (r_pos d)) else [::]) in              (* 42, 61 *)
    h_internal h d e Z method maxiter.

(* ---- the native call, _lanczos.cpp 84-100 ------------------------------------------ *)
Variable eps : F.
(* The kernel overwrites v, alpha, beta and Q; arguments that had to be converted
   are copies, so the caller's arrays are written only when bound.  Q is the
   column-major data. *)
Definition h_kernel (n m : nat) (A : 'M[F]_(n, m)) (h : heap) (bd : binding) (v : ref) (deg : int) (rtol : F) (orth : int)
    (alpha beta Q : ref) (ncv : nat) : heap * outcome unit :=
  match lanczos_recurrence eps A (load h v) deg rtol orth (load h alpha) (load h beta) (load h Q) ncv with
  | None => (h, Undef)
  | Some st =>
      let h := if b_v bd then store h v (k_q st) else h in
      let h := if b_out bd then store (store (store h alpha (k_alpha st)) beta (k_beta st)) Q (k_V st) else h in
      (h, Ret tt)
  end.

(* ---- lanczos(), lanczos.py 79-109 ---------------------------------------------------- *)
Variable G : Type.
Variable unif : G -> rat * G.
(* optional work arrays of the caller; Q with its number of rows and columns *)
Record hwork : Type := HWork { hw_alpha : option ref; hw_beta : option ref; hw_Q : option (nat * nat * ref); hw_float : bool }.
Record hbuf : Type := HBuf { hb_deg : nat; hb_ncv : nat; hb_alpha : ref; hb_beta : ref; hb_Q : ref }.

Definition h_get (h : heap) (r : option ref) (xs : seq F) : heap * ref := if r is Some r then (h, r) else alloc h xs.

Definition h_lanczos (n m : nat) (A : 'M[F]_(n, m)) (k : okind) (dA : dty) (h : heap) (v0 : option ref) (deg : option int)
    (rtol : F) (orth : int) (return_basis : bool) (dtype : option dty) (w : hwork) (g : G) : heap * outcome hbuf :=
  let deg := if deg is Some d then Num.min d m%:Z else m%:Z in                    (* 79 *)
  let dt := if dtype is Some d then d else product_dtype k in                     (* 80 *)
  if ~~ (0 < deg) then (h, Raise AssertionError)                                  (* 81 *)
  else if (if dA is OtherDtype then true else false) then (h, Raise AssertionError)  (* 85 *)
  else
    let orth := if (orth < 0) || (deg < orth) then deg else orth in               (* 88 *)
    let ncv := if return_basis then deg else npclip orth 2 deg in                 (* 89 *)
    let dn := `|deg|%N in let cn := `|ncv|%N in
    let: (h, v) := if v0 is Some r then let: (h, r) := copy h r in copy h r        (* 97: np.array, astype *)
                   else alloc h (unif_vec F unif m g).1 in
    if size (r_pos v) != m then (h, Raise AssertionError)                         (* 98 *)
    else
      let: (h, alpha) := h_get h (hw_alpha w) (nseq dn.+1 0) in                   (* 101-103 *)
      let: (h, beta) := h_get h (hw_beta w) (nseq dn.+1 0) in
      let: (h, qr, qc, Q) := if hw_Q w is Some (a, b, r) then (h, a, b, r)
                             else let: (h, r) := alloc h (nseq (n * cn) 0) in (h, n, cn, r) in
      if (size (r_pos alpha) != dn.+1) || (size (r_pos beta) != dn.+1) || (qr != n) || (qc != cn)
      then (h, Raise AssertionError)                                              (* 104-106 *)
      else match resolve k dt dA (hw_float w) with
      | None => (h, Raise TypeError)
      | Some bd =>
          match h_kernel A h bd v deg rtol orth alpha beta Q cn with              (* 109 *)
          | (h, Ret _) => (h, Ret (HBuf dn cn alpha beta Q))
          | (h, Raise x) => (h, Raise x) | (h, NonFin) => (h, NonFin) | (h, Undef) => (h, Undef)
          end
      end.

(* ---- integrate.py 57-77 ----------------------------------------------------------------- *)
(* `nodes` and `weights` are values here: the output arrays of the only caller
   (MatrixFunction.quad) are private.  fttr writes only its fresh array tau. *)
Definition h_quad_rule (h : heap) (d e : ref) (deg : int) (quad method : string) (maxiter : int)
  : heap * outcome (seq F * seq (xnum F)) :=
  if String.eqb quad "gw" || String.eqb quad "golub_welsch" then
    match h_tridiag h (vslice deg d) (vslice deg e) true method maxiter with
    | (h, Ret (HPairs rw rY)) =>
        (h, if mload h rY is row :: _ then Ret (load h rw, [seq Fin (y ^+ 2) | y <- row]) else Raise IndexError)
    | (h, Ret (HVals _)) => (h, Raise ValueError)
    | (h, Raise x) => (h, Raise x) | (h, NonFin) => (h, NonFin) | (h, Undef) => (h, Undef)
    end
  else if String.eqb quad "fttr" then
    match h_tridiag h d e false method maxiter with
    | (h, Ret (HPairs rw _)) | (h, Ret (HVals rw)) =>
        let w := load h rw in
        (h, if fttr w (load h d) (load h e) deg (nseq (size w) (Fin 0)) is Some t then Ret (w, t) else Undef)
    | (h, Raise x) => (h, Raise x) | (h, NonFin) => (h, NonFin) | (h, Undef) => (h, Undef)
    end
  else (h, Raise ValueError).

Definition h_quadrature (h : heap) (d e : ref) (deg : option int) (quad : string) (nodes : option (seq F))
    (weights : option (seq (xnum F))) (method : string) (maxiter : int) : heap * outcome (qres F) :=
  let deg := if deg is Some k then Num.min k (size (r_pos d))%:Z else (size (r_pos d))%:Z in   (* 57 *)
  let: (h, e) := if (size (r_pos e)).+1 == size (r_pos d) then alloc h (0 :: load h e) else (h, e) in  (* 58 *)
  if size (r_pos d) != size (r_pos e) then (h, Raise AssertionError)                          (* 59 *)
  else if size (r_pos e) == 0%N then (h, Raise IndexError)
  else if ~~ isclose0 (load h e)`_0 then (h, Raise AssertionError)
  else
    match h_quad_rule h d e deg quad method maxiter with
    | (h, Ret (theta, tau)) =>
        (h, match nodes, weights with                                                          (* 72-75 *)
            | Some ns, Some ws =>
                if ((size ns)%:Z != deg) || ((size ws)%:Z != deg) then Raise AssertionError
                else match copyto ns theta, copyto ws tau with
                     | Some ns', Some ws' => Ret (QRes theta tau (Some ns') (Some ws'))
                     | _, _ => Raise ValueError
                     end
            | _, _ => Ret (QRes theta tau nodes weights)
            end)
    | (h, Raise x) => (h, Raise x) | (h, NonFin) => (h, NonFin) | (h, Undef) => (h, Undef)
    end.

(* ---- MatrixFunction, operators.py 102-151 ------------------------------------------------- *)
(* the object: its plain attributes (of type mfobj, whose array fields for alpha,
   beta and Q are not used) and its work arrays *)
Record hmf : Type := HMF { hm_M : mfobj F; hm_alpha : ref; hm_beta : ref; hm_Q : ref }.
(* the object as a value *)
Definition hm_val (h : heap) (o : hmf) : mfobj F :=
  let M := hm_M o in
  MF (mf_n M) (mf_fun M) (mf_deg M) (mf_orth M) (mf_dt M) (mf_mv M) (load h (hm_alpha o)) (load h (hm_beta o))
     (mf_nodes M) (mf_weights M) (load h (hm_Q o)).

(* 69-77: the arrays of a new object are new *)
Definition h_new (h : heap) (M : mfobj F) : heap * hmf :=
  let: (h, a) := alloc h (mf_alpha M) in
  let: (h, b) := alloc h (mf_beta M) in
  let: (h, q) := alloc h (mf_Q M) in
  (h, HMF M a b q).

Definition h_mflanczos (n : nat) (A : 'M[F]_n) (k : okind) (dA : dty) (h : heap) (o : hmf) (x : ref) : heap * outcome unit :=
  let M := hm_M o in
  match mf_resolve k dA (mf_dt M) with
  | None => (h, Raise TypeError)
  | Some bd =>
      if (if (b_ov bd).2 is WObject then ~~ mf_mv M else false) then (h, Raise ValueError)
      else h_kernel A h bd x (mf_deg M)%:Z (mf_rtol F) (mf_orth M) (hm_alpha o) (hm_beta o) (hm_Q o) (mf_deg M)
  end.

(* 102-124 *)
Definition h__matvec (n : nat) (A : 'M[F]_n) (k : okind) (dA : dty) (h : heap) (o : hmf) (x : ref)
  : heap * outcome (seq (xnum F)) :=
  let M := hm_M o in
  let h := store h (hm_Q o) (nseq (size (r_pos (hm_Q o))) 0) in                              (* 116 *)
  let: (h, x) := copy h x in                                                                (* 117: astype *)
  let x_norm := Num.sqrt (sqnorm (load h x)) in                                             (* 118 *)
  match h_mflanczos A k dA h o x with                                                       (* 119 *)
  | (h, Undef) => (h, Undef) | (h, NonFin) => (h, NonFin) | (h, Raise e) => (h, Raise e)
  | (h, Ret _) =>
      let d := mf_deg M in
      match h_tridiag h (vtake d (hm_alpha o)) (vdrop 1 (vtake d (hm_beta o))) true "auto" 30 with  (* 122 *)
      | (h, Undef) => (h, Undef) | (h, NonFin) => (h, NonFin) | (h, Raise e) => (h, Raise e)
      | (h, Ret (HVals _)) => (h, Raise ValueError)
      | (h, Ret (HPairs rw rY)) =>
          let Y := mload h rY in
          (h, match np_mul (fvals (mf_fun M (load h rw))) [seq Fin y | y <- nth [::] Y 0] with     (* 124 *)
              | Some v => if size v == d then Ret (qyv n d x_norm (load h (hm_Q o)) Y v) else Raise ValueError
              | None => Raise ValueError
              end)
      end
  end.

(* 146-150 *)
Definition h_quad1 (n : nat) (A : 'M[F]_n) (k : okind) (dA : dty) (h : heap) (o : hmf) (xc : ref)
  : heap * outcome (xnum F) * hmf :=
  let x_norm_sq := Num.sqrt (sqnorm (load h xc)) ^+ 2 in                                     (* 147 *)
  match h_mflanczos A k dA h o xc with                                                      (* 148 *)
  | (h, Undef) => (h, Undef, o) | (h, NonFin) => (h, NonFin, o) | (h, Raise e) => (h, Raise e, o)
  | (h, Ret _) =>
      let M := hm_M o in
      match h_quadrature h (hm_alpha o) (hm_beta o) (Some (mf_deg M)%:Z) "gw"
              (Some (mf_nodes M)) (Some (mf_weights M)) "auto" 30 with                      (* 149 *)
      | (h, Undef) => (h, Undef, o) | (h, NonFin) => (h, NonFin, o) | (h, Raise e) => (h, Raise e, o)
      | (h, Ret r) =>
          let ns := odflt (mf_nodes M) (q_nodes r) in
          let ws := odflt (mf_weights M) (q_weights r) in
          let M := MF (mf_n M) (mf_fun M) (mf_deg M) (mf_orth M) (mf_dt M) (mf_mv M)
                     (mf_alpha M) (mf_beta M) ns ws (mf_Q M) in
          (h, if np_mul (fvals (mf_fun M ns)) ws is Some v
              then Ret (xmul (xsum v) (Fin x_norm_sq)) else Raise ValueError,                (* 150 *)
           HMF M (hm_alpha o) (hm_beta o) (hm_Q o))
      end
  end.

Fixpoint h_quad_loop (n : nat) (A : 'M[F]_n) (k : okind) (dA : dty) (h : heap) (o : hmf) (xcs : seq ref)
  : heap * outcome (seq (xnum F)) * hmf :=
  if xcs is xc :: xcs' then
    let: (h, r, o) := h_quad1 A k dA h o xc in
    match r with
    | Ret y => let: (h, r', o) := h_quad_loop A k dA h o xcs' in (h, obnd r' (fun ys => Ret (y :: ys)), o)
    | Undef => (h, Undef, o) | NonFin => (h, NonFin, o) | Raise e => (h, Raise e, o)
    end
  else (h, Ret [::], o).

(* 126-151.  The argument is a 2-d view given by its columns.  After 140-142
   (astype, atleast_2d, np.array(order="F")) x is a new column-major array; its
   columns x[:, j] are consecutive stretches of it. *)
Definition h_quad (n : nat) (A : 'M[F]_n) (k : okind) (dA : dty) (h : heap) (o : hmf) (X : mref)
  : heap * outcome (seq (xnum F)) * hmf :=
  let: (h, X) := malloc h (mload h X) in
  h_quad_loop A k dA h o [seq Ref (m_at X) c | c <- m_rows X].

(* a client program: calls on one object, with whatever arrays *)
Inductive hcall : Type := HMatvec of ref | HQuad of mref.
Definition h_call (n : nat) (A : 'M[F]_n) (k : okind) (dA : dty) (h : heap) (o : hmf) (c : hcall)
  : heap * outcome (seq (xnum F)) * hmf :=
  match c with
  | HMatvec x => if size (r_pos x) != mf_n (hm_M o) then (h, Raise ValueError, o)
                 else let: (h, r) := h__matvec A k dA h o x in (h, r, o)
  | HQuad X => h_quad A k dA h o X
  end.
Fixpoint h_run (n : nat) (A : 'M[F]_n) (k : okind) (dA : dty) (h : heap) (o : hmf) (cs : seq hcall) : heap * hmf :=
  if cs is c :: cs' then let: (h, _, o) := h_call A k dA h o c in h_run A k dA h o cs' else (h, o).
End Heap.
