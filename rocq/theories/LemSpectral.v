(* The spectral theorem for symmetric matrices over a real closed field: it shows
   that the specification assumed of LAPACK can be met for every input. *)
From mathcomp Require Import all_ssreflect all_algebra zify ring.
From mathcomp Require Import complex.
From Verif Require Import Base SpecLanczos SpecTridiag.
Set Implicit Arguments.
Unset Strict Implicit.
Unset Printing Implicit Defensive.
Import Order.TTheory GRing.Theory Num.Theory.
Local Open Scope ring_scope.

Section Spectral.
Variable F : rcfType.

Lemma row_sq_ge0 n (x : 'rV[F]_n) : 0 <= (x *m x^T) 0 0.
Proof. by rewrite mxE sumr_ge0 // => i _; rewrite mxE -expr2 sqr_ge0. Qed.

Lemma row_sq_eq0 n (x : 'rV[F]_n) : ((x *m x^T) 0 0 == 0) = (x == 0).
Proof.
apply/idP/eqP => [|->]; last by rewrite mul0mx mxE.
rewrite mxE psumr_eq0 => [/allP h|i _]; last by rewrite mxE -expr2 sqr_ge0.
apply/rowP => i; have := h i (mem_index_enum _); rewrite !mxE -expr2 sqrf_eq0; by move/eqP.
Qed.

Lemma row_scalC n (x y : 'rV[F]_n) : (x *m y^T) 0 0 = (y *m x^T) 0 0.
Proof. by rewrite !mxE; apply: eq_bigr => i _; rewrite !mxE mulrC. Qed.

(* a symmetric matrix has an eigenvector *)
Lemma sym_eigen n (A : 'M[F]_n.+1) : A^T = A -> exists (p : F) (x : 'rV[F]_n.+1), x != 0 /\ x *m A = p *: x.
Proof.
move=> sA; have [a /eigenvalueP [v hv v0]] := @Theorem7' F _ (map_mx (real_complex F) A) isT.
pose x := map_mx (@complex.Re F) v; pose y := map_mx (@complex.Im F) v.
pose p := complex.Re a; pose q := complex.Im a.
have [hx hy] : x *m A = p *: x - q *: y /\ y *m A = q *: x + p *: y.
  split; apply/rowP => j; move/rowP/(_ j): hv; rewrite !mxE => h.
    have := congr1 (@complex.Re F) h; rewrite raddf_sum /= => h1.
    rewrite (eq_bigr (fun i => complex.Re (v 0 i * map_mx (real_complex F) A i j))); last first.
      by move=> i _; rewrite !mxE; case: (v 0 i) => r s /=; rewrite mulr0 subr0.
    by rewrite h1 /p /q; case: (a); case: (v 0 j).
  have := congr1 (@complex.Im F) h; rewrite raddf_sum /= => h1.
  rewrite (eq_bigr (fun i => complex.Im (v 0 i * map_mx (real_complex F) A i j))); last first.
    by move=> i _; rewrite !mxE; case: (v 0 i) => r s /=; rewrite mulr0 add0r.
  by rewrite h1 /p /q; case: (a); case: (v 0 j) => r s r' s' /=; rewrite addrC mulrC; ring.
have xy : (x != 0) || (y != 0).
  rewrite -negb_and; apply: contra v0 => /andP[/eqP hx0 /eqP hy0]; apply/eqP/rowP => j.
  have := congr1 (fun z : 'rV_n.+1 => z 0 j) hx0; have := congr1 (fun z : 'rV_n.+1 => z 0 j) hy0.
  by rewrite !mxE; case: (v 0 j) => r s /= -> ->.
have q0 : q = 0.
  have h : (x *m A *m y^T) 0 0 = (x *m (y *m A)^T) 0 0 by rewrite trmx_mul sA mulmxA.
  rewrite hx hy mulmxBl -!scalemxAl raddfD /= !linearZ /= mulmxDr -!scalemxAr !mxE in h.
  have h2 : q * ((x *m x^T) 0 0 + (y *m y^T) 0 0) = 0.
    rewrite !mxE; move: h; set X := \sum_j _; set Y := \sum_j _; set Z := \sum_j _ => h.
    by have : (p * X + q * - Y) - (q * Z + p * X) = 0 by [rewrite h subrr]; move=> /eqP; rewrite -oppr_eq0 => /eqP <-; ring.
  move/eqP: h2; rewrite mulf_eq0 paddr_eq0 ?row_sq_ge0 // !row_sq_eq0 => /orP[/eqP //|].
  by move=> h'; move: xy; rewrite -negb_and h'.
rewrite q0 !scale0r ?subr0 ?add0r in hx hy.
by case/orP: xy => h; exists p; [exists x|exists y].
Qed.

(* Householder: an orthogonal symmetric matrix with a given unit first row *)
Lemma householder n (u : 'rV[F]_n.+1) : (u *m u^T) 0 0 = 1 ->
  exists H : 'M[F]_n.+1, [/\ H^T = H, H *m H = 1%:M & row 0 H = u].
Proof.
move=> u1; pose e : 'rV[F]_n.+1 := delta_mx 0 0.
have ee : (e *m e^T) 0 0 = 1.
  by rewrite mxE (bigD1 0) //= big1 ?addr0 => [|i i0]; rewrite !mxE ?eqxx ?mulr1 // (negbTE i0) mulr0.
have [h|h] := eqVneq u e.
  exists 1%:M; split; rewrite ?trmx1 ?mulmx1 //; apply/rowP => j; by rewrite h !mxE eq_sym.
pose w := e - u; have w0 : w != 0 by rewrite subr_eq0 eq_sym.
pose s := (w *m w^T) 0 0; have s0 : s != 0 by rewrite row_sq_eq0.
pose eu := (e *m u^T) 0 0.
have sE : s = 2%:R * (1 - eu).
  rewrite /s /w raddfB /= mulmxBl !mulmxBr !mxE.
  have -> : \sum_j e 0 j * e^T j 0 = 1 by rewrite -ee mxE.
  have -> : \sum_j u 0 j * u^T j 0 = 1 by rewrite -u1 mxE.
  have -> : \sum_j e 0 j * u^T j 0 = eu by rewrite /eu mxE.
  have -> : \sum_j u 0 j * e^T j 0 = eu by rewrite /eu row_scalC mxE.
  by ring.
have W1 : w *m w^T = s%:M by apply/matrixP => i j; rewrite !ord1 [RHS]mxE eqxx mulr1n.
exists (1%:M - (2%:R / s) *: (w^T *m w)); split.
- by rewrite raddfB /= linearZ /= trmx1 trmx_mul trmxK.
- have WW : (w^T *m w) *m (w^T *m w) = s *: (w^T *m w).
    by rewrite mulmxA -(mulmxA w^T w) W1 mul_mx_scalar -scalemxAl.
  move: (w^T *m w) WW => W WW.
  rewrite mulmxBl !mulmxBr !mul1mx mulmx1 -!scalemxAl -!scalemxAr WW !scalerA.
  have -> : 2%:R / s * (2%:R / s) * s = 2%:R / s + 2%:R / s by field.
  by rewrite scalerDl; move: (_ *: W) => X; rewrite opprB addrK subrK.
- have euE : eu = u 0 0.
    rewrite /eu mxE (bigD1 0) //= big1 ?addr0 => [|i i0]; rewrite !mxE ?eqxx ?mul1r //.
    by rewrite (negbTE i0) mul0r.
  apply/rowP => j; rewrite !mxE big_ord1 !mxE /= -euE.
  have -> : ((0 : 'I_n.+1) == j) = (j == 0) by rewrite eq_sym.
  have d0 : 1 - eu != 0 by apply: contraNneq s0 => h0; rewrite sE h0 mulr0.
  rewrite sE; move: (j == 0)%:R (u 0 j) => a b; by field.
Qed.

(* every symmetric matrix has an orthonormal basis of eigenvectors *)
Theorem spectral n (A : 'M[F]_n) : A^T = A ->
  exists (Y : 'M[F]_n) (w : 'rV[F]_n), Y^T *m Y = 1%:M /\ A *m Y = Y *m diag_mx w.
Proof.
elim: n A => [|n IH] A sA.
  exists 1%:M, 0; split; last by apply/matrixP => i; case: (i).
  by rewrite trmx1 mulmx1.
have [p [x [x0 hx]]] := sym_eigen sA.
pose s := (x *m x^T) 0 0; have s0 : 0 < s by rewrite lt_neqAle row_sq_ge0 eq_sym row_sq_eq0 x0.
pose u := (Num.sqrt s)^-1 *: x.
have uu : (u *m u^T) 0 0 = 1.
  rewrite /u linearZ /= -scalemxAl -scalemxAr scalerA mxE -/s -invfM -expr2 sqr_sqrtr ?ltW // mulVf // gt_eqF //.
have hu : u *m A = p *: u by rewrite /u -scalemxAl hx !scalerA mulrC.
have [H [sH HH rH]] := householder uu.
pose B : 'M[F]_(1 + n) := H *m A *m H.
have sB : B^T = B by rewrite /B !trmx_mul sA sH !mulmxA.
have rB : row 0 B = p *: row 0 (1%:M : 'M[F]_(1 + n)).
  rewrite /B !row_mul rH hu -scalemxAl; congr (_ *: _).
  by rewrite -{1}rH -row_mul HH.
have Bul : ulsubmx B = p%:M.
  clearbody B; apply/matrixP => i j; rewrite !ord1; move/rowP/(_ 0): rB; rewrite !mxE eqxx mulr1 mulr1n => <-.
  by congr (B _ _); apply: val_inj.
have Bur : ursubmx B = 0.
  clearbody B; apply/matrixP => i j; rewrite ord1 [RHS]mxE; move/rowP/(_ (rshift 1 j)): rB; rewrite !mxE => h.
  have -> : lshift n (0 : 'I_1) = 0 by apply: val_inj.
  by rewrite h /= mulr0n mulr0.
have Bdl : dlsubmx B = 0 by rewrite -[B]sB -trmx_ursub Bur trmx0.
have BE : B = block_mx p%:M 0 0 (drsubmx B) by rewrite -Bul -[in RHS]Bur -[X in block_mx _ _ X _]Bdl submxK.
have sC : (drsubmx B)^T = drsubmx B by rewrite trmx_drsub sB.
have [Y [w [oY hY]]] := IH _ sC; move: (drsubmx B) BE hY sC => C BE hY sC.
pose K : 'M[F]_(1 + n) := block_mx 1%:M 0 0 Y.
have KK : K^T *m K = 1%:M.
  rewrite /K tr_block_mx trmx1 !trmx0 mulmx_block.
  by rewrite !mul0mx !mulmx0 !mulmx1 !addr0 !add0r oY -scalar_mx_block.
have BK : B *m K = K *m diag_mx (row_mx (p%:M : 'rV_1) w).
  rewrite BE /K diag_mx_row !mulmx_block.
  rewrite !mul0mx !mulmx0 !mulmx1 !addr0 !add0r hY mul1mx; congr block_mx.
  by apply/matrixP => i j; rewrite !ord1 !mxE.
clearbody K; exists (H *m K), (row_mx (p%:M : 'rV_1) w); split.
  by rewrite trmx_mul sH mulmxA -(mulmxA K^T) HH mulmx1.
have -> : A *m (H *m K) = H *m (B *m K) by rewrite /B !mulmxA HH mul1mx.
by rewrite BK mulmxA.
Qed.

(* ---- an eigensolver meeting the specification ---------------------------------- *)
Definition eigok n (A : 'M[F]_n) (p : 'M[F]_n * 'rV[F]_n) : bool :=
  (p.1^T *m p.1 == 1%:M) && (A *m p.1 == p.1 *m diag_mx p.2).

Lemma eigok_ex n (A : 'M[F]_n) : A^T = A -> exists p, eigok A p.
Proof. by move=> /spectral[Y [w [h1 h2]]]; exists (Y, w); rewrite /eigok h1 h2 !eqxx. Qed.

Definition eigpick n (A : 'M[F]_n) : 'M[F]_n * 'rV[F]_n :=
  if eqVneq A^T A is EqNotNeq h then xchoose (eigok_ex h) else (0, 0).

Definition mx_rows m n (Y : 'M[F]_(m, n)) : seq (seq F) := [seq [seq Y i j | j <- enum 'I_n] | i <- enum 'I_m].

Lemma mx_rowsK m n (Y : 'M[F]_(m, n)) : rows_mx m n (mx_rows Y) = Y.
Proof.
apply/matrixP => i j; rewrite !mxE (nth_map i) ?size_enum_ord // (nth_map j) ?size_enum_ord //.
by rewrite !nth_ord_enum.
Qed.

Lemma jacobi_sym k (d e : nat -> F) : (jacobi k d e)^T = jacobi k d e.
Proof.
apply/matrixP => i j; rewrite !mxE eq_sym; case: eqP => [->//|ne].
case: eqP => h; last by case: eqP.
by have -> : (i.+1 == j) = false by lia.
Qed.

(* a stand-in for LAPACK *)
Definition ref_pairs (d e : seq F) : res (seq F * seq (seq F)) :=
  let: (Y, w) := eigpick (tri_of d e) in Ok ([seq w 0 j | j <- enum 'I_(size d)], mx_rows Y).
Definition ref_vals (d e : seq F) : res (seq F) := bind (ref_pairs d e) (fun p => Ok p.1).

Theorem ref_pairs_ok d e : exists w Y, ref_pairs d e = Ok (w, Y) /\ is_eigh (tri_of d e) w Y.
Proof.
rewrite /ref_pairs /eigpick; case: eqVneq => h; last by rewrite jacobi_sym eqxx in h.
case E: (xchoose _) => [Y w]; have := xchooseP (eigok_ex h); rewrite E => /andP[/eqP /= h1 /eqP h2].
eexists; eexists; split; first by [].
split; rewrite ?mx_rowsK //; try by rewrite size_map size_enum_ord.
  by apply/allP => u /mapP[i _ ->]; rewrite size_map size_enum_ord.
rewrite h2; congr (_ *m diag_mx _); apply/rowP => j.
by rewrite !mxE (nth_map j) ?size_enum_ord // nth_ord_enum.
Qed.

Theorem ref_ok : lapack_ok ref_vals ref_pairs.
Proof.
by move=> d e _; have [w [Y [h1 h2]]] := ref_pairs_ok d e; exists w, Y; rewrite /ref_vals h1.
Qed.
End Spectral.

Print Assumptions spectral.
Print Assumptions ref_pairs_ok.
Print Assumptions ref_ok.
