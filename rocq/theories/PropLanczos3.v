(* Properties C48, C49, C50, C51 (Lanczos: re-orthogonalisation, shape of the
   output, early stop, equivariance). *)
From mathcomp Require Import all_ssreflect all_algebra zify ring.
From Verif Require Import Base ModelXtrace LemXtrace ModelLanczos LemLanczos SpecLanczos LemLanczos2 LemLanczos3 LemLanczos4 PropLanczos PropLanczos2.
Set Implicit Arguments.
Unset Strict Implicit.
Unset Printing Implicit Defensive.
Import Order.TTheory GRing.Theory Num.Theory.
Local Open Scope ring_scope.

Section P.
Variable F : rcfType.
Variable eps : F.
Variable G : Type.
Variable unif : G -> rat * G.
Local Notation fresh := (LWork (F := F) None None None true).
Local Notation lanczos_call := (@lanczos_call F eps G unif).
Local Notation lanczos := (@lanczos F eps G unif).
Local Notation rayleigh_ritz := (@rayleigh_ritz F eps G unif).

(* ---- C48 ------------------------------------------------------------------- *)
Theorem C48_kernel_reorth_idle n (A : 'M[F]_n) (q : seq F) (deg : nat) rtol (orth orth' : int) (alpha beta V : seq F) ncv :
  0 <= eps -> A^T = A -> 0 < rtol -> (\col_(i < n) q`_i) != 0 ->
  size q = n -> size V = (n * ncv)%N -> (deg <= size alpha)%N -> (deg < size beta)%N -> (0 < deg)%N ->
  (0 < ncv)%N -> ((deg <= 1) || (2 <= ncv))%N -> (forall x, x \in V -> x = 0) ->
  lanczos_recurrence eps A q deg%:Z rtol orth alpha beta V ncv =
  lanczos_recurrence eps A q deg%:Z rtol orth' alpha beta V ncv.
Proof.
move=> e0 sA r0 q0 sq sV sa sb d0 c0 h V0.
have [s hs] := @stop_exists F n A (start (cvec n q)) (Num.sqrt n%:R * rtol) deg d0.
have tp := tol_pos sA r0 q0; have ub := unbroken_tol tp hs.
have cV c : colv n V c = 0.
  apply/colP => i; rewrite !mxE; have [hi|hi] := ltnP (c * n + i) (size V); last by rewrite nth_default.
  by apply: V0; rewrite mem_nth.
have idle o : reorth_idle A (cvec n q) eps s ncv o V.
  right; split=> //; last by right=> c _; right.
  by move=> j i jk ij; apply: (@lr_ortho F n A _ sA (start_unit q0) s).
by rewrite !(@kernel_final F n A eps rtol deg _ ncv q alpha beta V s).
Qed.

Lemma call_bad n (A : 'M[F]_n) k dA v deg rtol orth rb dtype g :
  ~~ [&& 0 < eff_deg n deg, ~~ dty_eqb dA OtherDtype & size v == n] ->
  lanczos_call A k dA (Some v) deg rtol orth rb dtype fresh g = Some (Err AssertionError).
Proof.
rewrite /ModelLanczos.lanczos_call -/(eff_deg n deg); case: ltP => //= _.
by case: dA => //=; case: eqP.
Qed.

Lemma good n dA (v : seq F) deg : [&& 0 < eff_deg n deg, ~~ dty_eqb dA OtherDtype & size v == n] ->
  [/\ 0 < eff_deg n deg, dA <> OtherDtype & size v = n].
Proof. by case/and3P=> h1 h2 /eqP h3; split=> //; case: dA h2. Qed.

Theorem C48_lanczos_orth_irrelevant n (A : 'M[F]_n) k dA (v : seq F) deg rtol orth orth' sparse rb dtype g :
  0 <= eps -> A^T = A -> 0 < rtol -> (\col_(i < n) v`_i) != 0 -> kept k dA dtype ->
  lanczos A k dA (Some v) deg rtol orth sparse rb dtype fresh g =
  lanczos A k dA (Some v) deg rtol orth' sparse rb dtype fresh g.
Proof.
move=> e0 sA r0 v0 hdt; rewrite /ModelLanczos.lanczos.
have [hg|hg] := boolP [&& 0 < eff_deg n deg, ~~ dty_eqb dA OtherDtype & size v == n]; last by rewrite !call_bad.
have [d0 hd sv] := good hg.
have [s [hs ub ->]] := @out_call F eps e0 G unif n A k dA v deg rtol orth rb dtype g sA r0 v0 hdt sv d0.
have [s' [hs' _ ->]] := @out_call F eps e0 G unif n A k dA v deg rtol orth' rb dtype g sA r0 v0 hdt sv d0.
by rewrite (stop_unique hs' hs); case: rb => //; case: (sparse).
Qed.

(* ---- C49 ------------------------------------------------------------------- *)
Lemma call_sizes n (A : 'M[F]_n) k dA (v0 : option (seq F)) deg rtol orth rb dtype w g out :
  (if w_Q w is Some (r, c, Q) then size Q = (r * c)%N else True) ->
  lanczos_call A k dA v0 deg rtol orth rb dtype w g = Some (Ok out) ->
  [/\ size (o_alpha out) = (o_deg out).+1, size (o_beta out) = (o_deg out).+1 &
      size (o_Q out) = (n * o_ncv out)%N].
Proof.
move=> hw; rewrite /ModelLanczos.lanczos_call -/(eff_deg n deg); set d := eff_deg n deg.
case: ifP => // /negbFE d0; case: ifP => // _; case: ifP => // /negbFE/eqP sv.
set o := if (orth < 0) || _ then _ else _; set c := if rb then d else _.
have o0 : 0 <= o <= d by rewrite /o; case: ifP; lia.
have hc : 1 <= c /\ (2 <= d -> 2 <= c) by rewrite /c /npclip; case: (rb); lia.
case eQ: (if w_Q w is Some q then q else _) => [[qr qc] Q]; case: ifP => // /negbT.
rewrite !negb_or !negbK -!andbA => /and4P[/eqP sa /eqP sb /eqP er /eqP ec].
have sQ : size Q = (n * `|c|)%N.
  by move: hw eQ; case: (w_Q w) => [[[r' c'] Q']|_ [_ _ <-]]; [move=> + [e1 e2 e3]; rewrite e1 e2 e3 er ec|rewrite size_nseq].
case: (resolve _ _ _ _) => // bd.
case: (@C45_kernel_in_bounds F eps n A _ d rtol o (if w_alpha w is Some a then a else nseq (`|d|%N).+1 0)
  (if w_beta w is Some b then b else nseq (`|d|%N).+1 0) Q `|c|%N sv sQ) => [|||||st [-> [_ s1 s2 s3]] [<-]]; rewrite ?sa ?sb; try lia.
by case: ifP => _ /=; split=> //; rewrite ?s1 ?s2 ?s3 ?sa ?sb.
Qed.

(* every call that returns: d diagonal entries, d - 1 off-diagonal ones, a d x d
   matrix with sparse_mat, an n x d basis with return_basis *)
Theorem C49_output_shape n (A : 'M[F]_n) k dA (v0 : option (seq F)) deg rtol orth sparse rb dtype w g r :
  (if w_Q w is Some (r, c, Q) then size Q = (r * c)%N else True) ->
  lanczos A k dA v0 deg rtol orth sparse rb dtype w g = Some (Ok r) ->
  exists2 d : nat, d%:Z = eff_deg n deg & (0 < d)%N /\
  match r with
  | LPair a b => [/\ ~~ sparse, ~~ rb, size a = d & size b = d.-1]
  | LPairQ (a, b) Q => [/\ ~~ sparse, rb, size a = d, size b = d.-1 & size Q = (n * d)%N]
  | LMat T => [/\ sparse, ~~ rb, size T = d & forall i, (i < d)%N -> size (nth [::] T i) = d]
  | LMatQ T Q => [/\ sparse, rb, size T = d, forall i, (i < d)%N -> size (nth [::] T i) = d & size Q = (n * d)%N]
  end.
Proof.
move=> hw; rewrite /ModelLanczos.lanczos; case E: (lanczos_call _ _ _ _ _ _ _ _ _ _ _) => [[out|e]|] // [<-].
have [h1 h2 _ h4] := C44_effective_parameters E; have := call_sizes hw E.
case: out E h1 h2 h4 => d c al be Q /= _ h1 h2 h4 [sa sb sQ]; exists d => //; split; first by lia.
case: sparse; case: rb h4 => h4; rewrite /lanczos_format.
- split=> //; [by rewrite size_mkseq|by move=> i hi; rewrite nth_mkseq // size_mkseq|by rewrite sQ h4].
- split=> //; [by rewrite size_mkseq|by move=> i hi; rewrite nth_mkseq // size_mkseq].
- by split=> //; rewrite ?size_drop ?size_takel ?sa ?sb ?sQ ?h4 ?subn1.
- by split=> //; rewrite ?size_drop ?size_takel ?sa ?sb ?subn1.
Qed.

(* sparse_mat=True returns exactly the symmetric tridiagonal matrix of the pair
   that the same call returns without it *)
Definition tridiagonal (a b : seq F) : seq (seq F) :=
  [seq [seq (if i == j then a`_i else if i.+1 == j then b`_i else if j.+1 == i then b`_j else 0)
        | j <- iota 0 (size a)] | i <- iota 0 (size a)].

Lemma spdiags_tri d (al be : seq F) : size al = d.+1 -> size be = d.+1 ->
  spdiags [:: rot 1 be; al; be] [:: -1; 0; 1] d d = tridiagonal (take d al) (drop 1 (take d be)).
Proof.
move=> sa sb; rewrite /spdiags /tridiagonal size_takel ?sa // /mkseq; apply/eq_in_map => i; rewrite mem_iota add0n => /andP[_ hi].
apply/eq_in_map => j; rewrite mem_iota add0n => /andP[_ hj].
rewrite /= !big_cons big_nil /= !addr0.
have -> : (-1 == j%:Z - i%:Z) = (j.+1 == i) by apply/eqP/eqP; lia.
have -> : (0 == j%:Z - i%:Z) = (i == j) by apply/eqP/eqP; lia.
have -> : (1 == j%:Z - i%:Z) = (i.+1 == j) by apply/eqP/eqP; lia.
have [->|ne] := eqVneq i j.
  by rewrite !gtn_eqF // addr0 nth_take.
have [e|ne1] := eqVneq i.+1 j; first by rewrite gtn_eqF ?add0r -?e // nth_drop nth_take; [|lia].
have [e|ne2] := eqVneq j.+1 i; last by [].
rewrite !addr0 ?add0r nth_drop nth_take; last by lia.
by case: be sb => // x be [sb]; rewrite rot1_cons nth_rcons sb /= (_ : (j < d)%N).
Qed.

Theorem C49_sparse_is_tridiagonal n (A : 'M[F]_n) k dA (v0 : option (seq F)) deg rtol orth rb dtype w g :
  (if w_Q w is Some (r, c, Q) then size Q = (r * c)%N else True) ->
  lanczos A k dA v0 deg rtol orth true rb dtype w g =
  match lanczos A k dA v0 deg rtol orth false rb dtype w g with
  | Some (Ok (LPair a b)) => Some (Ok (LMat (tridiagonal a b)))
  | Some (Ok (LPairQ (a, b) Q)) => Some (Ok (LMatQ (tridiagonal a b) Q))
  | r => r
  end.
Proof.
move=> hw; rewrite /ModelLanczos.lanczos; case E: (lanczos_call _ _ _ _ _ _ _ _ _ _ _) => [[out|e]|] //.
have := call_sizes hw E; case: out E => d c al be Q E /= [sa sb _].
by case: rb E => E; rewrite /lanczos_format spdiags_tri.
Qed.

(* ---- C50 ------------------------------------------------------------------- *)
(* the first residual below the tolerance is exactly zero: the first s basis
   vectors span an invariant subspace on which the leading block represents A;
   everything after is zero *)
Theorem C50_early_stop n (A : 'M[F]_n) k dA (v : seq F) deg rtol orth dtype g (a b Q : seq F) s :
  0 <= eps -> A^T = A -> 0 < rtol -> (\col_(i < n) v`_i) != 0 -> kept k dA dtype ->
  lanczos A k dA (Some v) deg rtol orth false true dtype fresh g = Some (Ok (LPairQ (a, b) Q)) ->
  (0 < s < size a)%N -> (forall x, x \in take s.-1 b -> Num.sqrt n%:R * rtol <= x) -> b`_s.-1 = 0 ->
  let Qm : 'M[F]_(n, s) := \matrix_(i, j) Q`_(j * n + i) in
  let T : 'M[F]_s := jacobi s (nth 0 a) (fun i => b`_i.-1) in
  [/\ Qm^T *m Qm = 1%:M, A *m Qm = Qm *m T,
      forall i, (s <= i)%N -> a`_i = 0, forall i, (s.-1 <= i)%N -> b`_i = 0 &
      forall i, (s * n <= i)%N -> Q`_i = 0].
Proof.
move=> e0 sA r0 v0 hdt /(pair_out e0 sA r0 v0 hdt) [d [t [a' [b' [[de d0] hs ub hp [-> -> ->]]]]]] hsa hb hz.
have [sa sb na nb] := hp; have tp := tol_pos sA r0 v0; rewrite sa in hsa.
have u0 : dt (start (cvec n v)) (start (cvec n v)) = 1 := start_unit v0.
have e : t = s.
  have st : (s <= t)%N by rewrite -(prednK (n := s)) ?(reached hs hp); [apply/allP|lia|lia].
  apply/eqP; rewrite eqn_leq st andbT leqNgt; apply/negP => ts; have [_ h _] := hs.
  have := h s; rewrite ts (andP hsa).1 => /(_ isT); move: (nb s.-1); rewrite prednK; last by lia.
  by rewrite st hz => <-; [rewrite leNgt tp|lia].
subst t; have lb0' : lb A (start (cvec n v)) s = 0.
  by move: (nb s.-1); rewrite prednK; [rewrite leqnn => <- //; lia|lia].
have dd : okeep d orth true = d by rewrite /okeep; lia.
have QE : \matrix_(i, j) (basis_of A v orth true d s)`_(j * n + i) = Qm A (start (cvec n v)) s.
  apply/matrixP => i j; rewrite !mxE /= /basis_of dd.
  have hj := ltn_ord j; have jd : (j < d)%N by lia.
  have /colP/(_ i) := @colv_flat F n d (fun j0 => if (j0 < s)%N then lq A (start (cvec n v)) (slot d s j0) else 0) j jd.
  by rewrite mxE hj => ->; rewrite slot_small //; lia.
have TE : jacobi s (nth 0 a') (fun i => b'`_i.-1) = jacobi s (la A (start (cvec n v))) (lb A (start (cvec n v))).
  apply: jacobi_ext => i hi; first by rewrite na ?hi //; lia.
  case/andP: hi; case: i => // i _ hi; by rewrite nb ?(ltnW hi) //; lia.
cbv zeta; rewrite QE TE; split.
- exact: QTQ.
- apply/matrixP => i j; have /colP/(_ i) := A_Qm ub j.
  have -> : (j.+1 == s)%:R *: lr A (start (cvec n v)) j = 0.
    case: eqP => [ej|_]; last by rewrite scale0r.
    by apply/eqP; rewrite scale1r -vnorm_eq0 -lbS ej lb0'.
  by rewrite addr0 -!col_mul !mxE.
- move=> i hi; have [id|id] := ltnP i d; last by rewrite nth_default ?sa.
  by rewrite na // ltnNge hi.
- move=> i hi; have [id|id] := ltnP i.+1 d; last by rewrite nth_default // sb; lia.
  rewrite nb //; case: ifP => // is_; by rewrite (_ : i.+1 = s) //; lia.
- move=> i hi; rewrite /basis_of dd.
  have [id|id] := ltnP i (d * n); last by rewrite nth_default // size_flatV.
  have n0 : (0 < n)%N by lia.
  have cd : (i %/ n < d)%N by rewrite ltn_divLR.
  have := @colv_flat F n d (fun j0 => if (j0 < s)%N then lq A (start (cvec n v)) (slot d s j0) else 0) (i %/ n)%N cd.
  move/colP => /(_ (Ordinal (ltn_pmod i n0))); rewrite mxE /= -divn_eq => ->.
  by rewrite ltnNge leq_divRL // hi /= mxE.
Qed.

(* rayleigh_ritz of the identity reports the eigenvalue 0, for every start
   vector and every correct eigenvalue solver *)
Theorem C50_ritz_spurious_zero_refuted n k dA (v : seq F) (deg : option int) rtol orth (eigh : seq F -> seq F -> seq F * seq (seq F)) (eigvalsh : seq F -> seq F -> seq F) g :
  (forall a b x, size b = (size a).-1 ->
     (x \in eigvalsh a b) = eigenvalue (jacobi (size a) (nth 0 a) (fun i => b`_i.-1)) x) ->
  0 <= eps -> 0 < rtol -> (2 <= n)%N -> size v = n -> (\col_(i < n) v`_i) != 0 -> kept k dA None ->
  (if deg is Some d then 0 < d else true) ->
  ~~ eigenvalue (1%:M : 'M[F]_n) 0 /\
  exists r, rayleigh_ritz eigh eigvalsh (1%:M : 'M[F]_n) k dA deg false (Some v) rtol orth false None true g = Some (Ok r) /\
    0 \in rr_values r.
Proof.
move=> hE e0 r0 n2 sv v0 hd hdeg; split.
  by apply/eigenvalueP => - [x]; rewrite mulmx1 scale0r => ->; rewrite eqxx.
rewrite /ModelLanczos.rayleigh_ritz -/(eff_deg n deg).
have d0 : 0 < eff_deg n deg by rewrite /eff_deg; case: (deg) hdeg; lia.
rewrite d0 /=; set D := npclip _ _ _; have hD : 2 <= D <= n%:Z by rewrite /D /npclip; lia.
have sA : (1%:M : 'M[F]_n)^T = 1%:M by rewrite trmx1.
have dD : eff_deg n (Some D) = D by rewrite /eff_deg; lia.
have [|s [hs ub E]] := @out_call F eps e0 G unif n 1%:M k dA v (Some D) rtol orth false None g sA r0 v0 hd sv; first by rewrite dD; lia.
rewrite dD in hs E; rewrite E; eexists; split; first by [].
set q0 := start _ in hs.
have u0 : dt q0 q0 = 1 by exact: start_unit.
have s1 : s = 1%N.
  apply: (stop_unique hs); split; [lia|by move=> i; lia|right].
  rewrite lbS lrE laE lb0 !scale0r !subr0 lq0 mul1mx u0 scale1r subrr vnormE dt0r sqrtr0; exact: tol_pos sA r0 v0.
have := @pair_ab F n 1%:M v `|D|%N (okeep D orth false) s; rewrite s1 => /(_ _) [|sa sb na nb]; first by lia.
rewrite /rr_values; have i1 : (1 < `|D|)%N by lia.
have -> : forall c, o_deg (outbuf 1%:M v `|D| c 1) = `|D|%N by [].
move: (take _ (o_alpha _)) (drop _ _) sa sb na nb => aa bb sa sb na nb.
rewrite hE ?sa ?sb //.
apply/eigenvalueP; exists (delta_mx 0 (Ordinal i1)); last first.
  by apply/eqP => /matrixP/(_ 0 (Ordinal i1)); rewrite !mxE !eqxx => /eqP; rewrite oner_eq0.
rewrite scale0r -rowE; apply/rowP => j; rewrite !mxE.
case: eqP => [_|_]; first by rewrite na.
case: eqP => [/= h|_]; first by rewrite -h nb //= h.
case: eqP => [h|//]; rewrite nb //= lbS lrE laE lb0 !scale0r !subr0 lq0 mul1mx u0 scale1r subrr vnormE dt0r sqrtr0 //.
Qed.

(* ---- C51 ------------------------------------------------------------------- *)
(* A + sI: same off-diagonal; the diagonal is shifted for every step performed *)
Theorem C51_shift n (A : 'M[F]_n) k dA (v : seq F) deg rtol orth dtype g (s : F) (a b : seq F) :
  0 <= eps -> A^T = A -> 0 < rtol -> (\col_(i < n) v`_i) != 0 -> kept k dA dtype ->
  lanczos A k dA (Some v) deg rtol orth false false dtype fresh g = Some (Ok (LPair a b)) ->
  exists a', [/\ lanczos (A + s%:M) k dA (Some v) deg rtol orth false false dtype fresh g = Some (Ok (LPair a' b)),
    size a' = size a &
    forall i, (i < size a)%N ->
      a'`_i = a`_i + (if all (fun x => Num.sqrt n%:R * rtol <= x) (take i b) then s else 0)].
Proof.
move=> e0 sA r0 v0 hdt H; have [d0 hd sv] : [/\ 0 < eff_deg n deg, dA <> OtherDtype & size v = n].
  by move: H; rewrite /ModelLanczos.lanczos; case E: (lanczos_call _ _ _ _ _ _ _ _ _ _ _) => [[out|e]|] // _; exact: call_pre E.
move: H; have [t [a1 [b1 [hs ub hp ->]]]] := @pair_run F eps e0 G unif n A k dA v deg rtol orth false dtype g sA r0 v0 hdt sv d0.
case=> <- <-.
have sA' : (A + s%:M)^T = A + s%:M by rewrite linearD /= sA tr_scalar_mx.
have [t' [a2 [b2 [hs' _ hp' E]]]] := @pair_run F eps e0 G unif n _ k dA v deg rtol orth false dtype g sA' r0 v0 hdt sv d0.
have uq : unitor0 (start (cvec n v)) by exact: unit_start.
have u0 : dt (start (cvec n v)) (start (cvec n v)) = 1 := start_unit v0.
have lbE i : lb (A + s%:M) (start (cvec n v)) i = lb A (start (cvec n v)) i by rewrite /lb tri_shift.
have e : t' = t.
  apply: (stop_unique (A := A) (q0 := start (cvec n v)) (tol := Num.sqrt n%:R * rtol) (deg := `|eff_deg n deg|%N)) => //.
  by have [h1 h2 h3] := hs'; split=> // [i hi|]; rewrite -lbE ?h2.
subst t'; have [sa1 sb1 na1 nb1] := hp; have [sa2 sb2 na2 nb2] := hp'.
exists a2; split; [rewrite E; congr (Some (Ok (LPair _ _)))|by rewrite sa1 sa2|].
  apply: (@eq_from_nth _ 0); rewrite ?sb2 ?sb1 // => i hi; rewrite nb2 ?nb1 ?lbE //; lia.
rewrite sa1 => i hi; rewrite na2 // na1 // -(reached hs hp hi); case: ifP => [it|_]; last by rewrite addr0.
by rewrite la_shift // innerE (lq_ortho sA u0 ub) // eqxx mulr1.
Qed.

Lemma kernel_start n (A : 'M[F]_n) (q q' : seq F) (deg : int) rtol orth (alpha beta V : seq F) ncv :
  size q = n -> size q' = n -> unitv (cvec n q) = unitv (cvec n q') ->
  size V = (n * ncv)%N -> 0 < deg -> deg <= (size alpha)%:Z -> deg < (size beta)%:Z ->
  (0 < ncv)%N -> (deg <= 1) || (2 <= ncv)%N ->
  lanczos_recurrence eps A q deg rtol orth alpha beta V ncv = lanczos_recurrence eps A q' deg rtol orth alpha beta V ncv.
Proof.
move=> sq sq' uq sV d0 sa sb n0 h.
have [d dE] : exists d : nat, deg = d.+1%:Z by exists `|deg|.-1%N; lia.
subst deg.
have H := @kernel_conc F n A eps rtol d.+1 orth ncv (size alpha) (size beta) _ n0.
have := H (ASt (cvec n q) (nth 0 alpha) (nth 0 beta) (colv n V)); have := H (ASt (cvec n q') (nth 0 alpha) (nth 0 beta) (colv n V)).
rewrite /= !cvecK // !mkseq_nth flat_colv // => H1 H2; rewrite H1 ?H2; try lia.
by congr (Some (conc _ _ _ _)); rewrite /akernel /a_q uq.
Qed.

(* every square matrix, every orth and every kind of output *)
Theorem C51_start_vector_scale n (A : 'M[F]_n) k dA (v : seq F) deg rtol orth sparse rb dtype w g (c : F) :
  (if w_Q w is Some (r, c, Q) then size Q = (r * c)%N else True) -> 0 < c ->
  lanczos A k dA (Some [seq c * x | x <- v]) deg rtol orth sparse rb dtype w g =
  lanczos A k dA (Some v) deg rtol orth sparse rb dtype w g.
Proof.
move=> hw c0; suff E : lanczos_call A k dA (Some [seq c * x | x <- v]) deg rtol orth rb dtype w g =
  lanczos_call A k dA (Some v) deg rtol orth rb dtype w g by rewrite /ModelLanczos.lanczos E.
rewrite /ModelLanczos.lanczos_call -/(eff_deg n deg); set d := eff_deg n deg.
case: ifP => // /negbFE d0; case: ifP => // _; rewrite size_map; case: ifP => // /negbFE/eqP sv.
set o := if (orth < 0) || _ then _ else _; set c1 := if rb then d else _.
have o0 : 0 <= o <= d by rewrite /o; case: ifP; lia.
have hc : 1 <= c1 /\ (2 <= d -> 2 <= c1) by rewrite /c1 /npclip; case: (rb); lia.
case eQ: (if w_Q w is Some q then q else _) => [[qr qc] Q]; case: ifP => // /negbT.
rewrite !negb_or !negbK -!andbA => /and4P[/eqP sa /eqP sb /eqP er /eqP ec].
have sQ : size Q = (n * `|c1|)%N.
  by move: hw eQ; case: (w_Q w) => [[[r' c'] Q']|_ [_ _ <-]]; [move=> + [e1 e2 e3]; rewrite e1 e2 e3 er ec|rewrite size_nseq].
case: (resolve _ _ _ _) => // bd.
rewrite (@kernel_start n A [seq c * x | x <- v] v d rtol o _ _ Q `|c1|%N) ?size_map //; rewrite ?sa ?sb; try lia.
rewrite !unitvE -(start_scale (cvec n v) c0); congr start; apply/colP => i; rewrite !mxE.
by rewrite (nth_map 0) // sv.
Qed.

Theorem C51_start_vector_sign n (A : 'M[F]_n) k dA (v : seq F) deg rtol orth rb dtype g :
  0 <= eps -> A^T = A -> 0 < rtol -> (\col_(i < n) v`_i) != 0 -> kept k dA dtype ->
  lanczos A k dA (Some [seq - x | x <- v]) deg rtol orth false rb dtype fresh g =
  match lanczos A k dA (Some v) deg rtol orth false rb dtype fresh g with
  | Some (Ok (LPairQ ab Q)) => Some (Ok (LPairQ ab [seq - x | x <- Q]))
  | r => r
  end.
Proof.
move=> e0 sA r0 v0 hdt.
have [hg|hg] := boolP [&& 0 < eff_deg n deg, ~~ dty_eqb dA OtherDtype & size v == n]; last first.
  by rewrite /ModelLanczos.lanczos !call_bad // size_map.
have [d0 hd sv] := good hg.
have cE : cvec n [seq - x | x <- v] = - cvec n v by apply/colP => i; rewrite !mxE (nth_map 0) // sv.
have v0' : (\col_(i < n) [seq - x | x <- v]`_i) != 0 by rewrite -/(cvec n _) cE oppr_eq0.
have [s [a [b [hs ub hp ->]]]] := @pair_run F eps e0 G unif n A k dA v deg rtol orth rb dtype g sA r0 v0 hdt sv d0.
have [|s' [a' [b' [hs' ub' hp' ->]]]] := @pair_run F eps e0 G unif n A k dA _ deg rtol orth rb dtype g sA r0 v0' hdt _ d0; first by rewrite size_map.
set q0 := start (cvec n v) in hs ub.
have qE : start (cvec n [seq - x | x <- v]) = - q0 by rewrite cE start_neg.
have lbE i : lb A (- q0) i = lb A q0 i by rewrite /lb tri_neg; case: (tri A q0 i) => [[? ?] ?].
have lqE i : lq A (- q0) i = - lq A q0 i by rewrite /lq tri_neg; case: (tri A q0 i) => [[? ?] ?].
have hs2 : stop_at A q0 (Num.sqrt n%:R * rtol) `|eff_deg n deg|%N s'.
  by move: hs'; rewrite qE => - [h1 h2 h3]; split=> // [i hi|]; rewrite -lbE ?h2.
have e := stop_unique hs2 hs; subst s'.
have hp2 : pair_of A v `|eff_deg n deg|%N s a' b'.
  have [sa sb na nb] := hp'; split=> // i hi; first by rewrite na // qE la_neg.
  by rewrite nb // qE lbE.
have [-> ->] := pair_det hs hs hp2 hp; case: rb => //; congr (Some (Ok (LPairQ _ _))).
rewrite /basis_of map_flatten -map_comp; congr flatten; apply/eq_map => j /=.
rewrite /cseq -map_comp; apply/eq_map => i /=; rewrite qE; case: ifP => _; last by rewrite mxE oppr0.
by rewrite lqE mxE.
Qed.

(* cA: everything scales by c > 0 provided neither run stops early *)
Theorem C51_matrix_scale n (A : 'M[F]_n) k dA (v : seq F) deg rtol orth dtype g (c : F) (a b : seq F) :
  0 <= eps -> A^T = A -> 0 < rtol -> (\col_(i < n) v`_i) != 0 -> kept k dA dtype -> 0 < c ->
  lanczos A k dA (Some v) deg rtol orth false false dtype fresh g = Some (Ok (LPair a b)) ->
  (forall x, x \in b -> Num.sqrt n%:R * rtol <= x) -> (forall x, x \in b -> Num.sqrt n%:R * rtol <= c * x) ->
  lanczos (c *: A) k dA (Some v) deg rtol orth false false dtype fresh g =
  Some (Ok (LPair [seq c * x | x <- a] [seq c * x | x <- b])).
Proof.
move=> e0 sA r0 v0 hdt c0 H; have [d0 hd sv] : [/\ 0 < eff_deg n deg, dA <> OtherDtype & size v = n].
  by move: H; rewrite /ModelLanczos.lanczos; case E: (lanczos_call _ _ _ _ _ _ _ _ _ _ _) => [[out|e]|] // _; exact: call_pre E.
move: H; have [t [a1 [b1 [hs ub hp ->]]]] := @pair_run F eps e0 G unif n A k dA v deg rtol orth false dtype g sA r0 v0 hdt sv d0.
case=> <- <- hb1 hb2.
have sA' : (c *: A)^T = c *: A by rewrite linearZ /= sA.
have [t' [a2 [b2 [hs' _ hp' ->]]]] := @pair_run F eps e0 G unif n _ k dA v deg rtol orth false dtype g sA' r0 v0 hdt sv d0.
move: hs ub hp hs' hp'; set d := `|eff_deg n deg|%N; have dp : (0 < d)%N by rewrite /d; lia.
clearbody d => hs ub hp hs' hp'.
have td := full_steps hs hp dp hb1; subst t; have [sa sb na nb] := hp.
have lbE i : lb (c *: A) (start (cvec n v)) i = c * lb A (start (cvec n v)) i.
  by rewrite /lb tri_scale //; case: (tri _ _ i) => [[? ?] ?].
have e : t' = d.
  apply: (stop_unique hs'); split; [lia| |by left] => - [//|i] /andP[_ hi].
  rewrite lbE; have := nb i hi; rewrite (ltnW hi) => <-; apply: hb2; apply: mem_nth; rewrite sb; lia.
subst t'; have [sa' sb' na' nb'] := hp'.
congr (Some (Ok (LPair _ _))); apply: (@eq_from_nth _ 0); rewrite ?size_map ?sa ?sb // => i hi; rewrite ?sa' ?sb' in hi *.
  by rewrite (nth_map 0) ?sa // na' // na // hi la_scale.
have hi1 : (i.+1 < d)%N by lia.
by rewrite (nth_map 0) ?sb // nb' // nb // (ltnW hi1) lbE.
Qed.

End P.

Print Assumptions C48_kernel_reorth_idle.
Print Assumptions C48_lanczos_orth_irrelevant.
Print Assumptions C49_output_shape.
Print Assumptions C49_sparse_is_tridiagonal.
Print Assumptions C50_early_stop.
Print Assumptions C50_ritz_spurious_zero_refuted.
Print Assumptions C51_shift.
Print Assumptions C51_start_vector_scale.
Print Assumptions C51_start_vector_sign.
Print Assumptions C51_matrix_scale.
