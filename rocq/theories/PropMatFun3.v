(* Refutations of C59 and C61. *)
From Coq Require Import String.
From mathcomp Require Import all_ssreflect all_algebra zify ring.
From Verif Require Import Base ModelXtrace LemXtrace ModelTyping ModelLanczos LemLanczos SpecLanczos LemLanczos2 LemLanczos3 LemLanczos4
  ModelTqli ModelQuadrature ModelSpecial ModelOperators SpecTridiag SpecQuad SpecOperators LemSpectral LemQuad PropQuad
  PropOperators LemOperators LemOperators2 PropLanczos4 PropMatFun PropMatFun2.
Set Implicit Arguments.
Unset Strict Implicit.
Unset Printing Implicit Defensive.
Import Order.TTheory GRing.Theory Num.Theory.
Local Open Scope string_scope.
Local Open Scope ring_scope.

(* ---- a Lanczos run along known vectors ------------------------------------------------ *)
Section Run.
Variables (F : rcfType) (n : nat) (A : 'M[F]_n) (v0 v1 v2 : 'cV[F]_n) (a b c e f : F).
Hypotheses (h00 : dt v0 v0 = 1) (h01 : dt v0 v1 = 0) (h11 : dt v1 v1 = 1).
Hypotheses (b0 : 0 < b) (A0 : A *m v0 = a *: v0 + b *: v1).

Lemma r_la0 : la A v0 0 = a.
Proof. by rewrite laE lb0 scale0r subr0 lq0 A0 dtDr !dtZr h00 h01; ring. Qed.
Lemma r_lr0 : lr A v0 0 = b *: v1.
Proof. by rewrite lrE r_la0 lb0 scale0r subr0 lq0 A0 addrAC subrr add0r. Qed.
Lemma r_lb1 : lb A v0 1 = b.
Proof. by rewrite lbS r_lr0 vnormZ vnormE h11 sqrtr1 mulr1 ger0_norm // ltW. Qed.
Lemma r_lq1 : lq A v0 1 = v1.
Proof. by rewrite lqS r_lb1 r_lr0 scalerA mulVf ?scale1r // gt_eqF. Qed.

Hypotheses (h12 : dt v1 v2 = 0) (A1 : A *m v1 = b *: v0 + c *: v1 + e *: v2).
Lemma r_A1 : A *m v1 - b *: v0 = c *: v1 + e *: v2.
Proof. by rewrite A1 [_ - _]addrC -[b *: v0 + _ + _]addrA addKr. Qed.
Lemma r_la1 : la A v0 1 = c.
Proof. by rewrite laE r_lb1 r_lq1 lpS lq0 r_A1 dtDr !dtZr h11 h12; ring. Qed.
Lemma r_lr1 : lr A v0 1 = e *: v2.
Proof. by rewrite lrE r_la1 r_lb1 r_lq1 lpS lq0 r_A1 addrAC subrr add0r. Qed.
Hypotheses (h22 : dt v2 v2 = 1) (e0 : 0 < e).
Lemma r_lb2 : lb A v0 2 = e.
Proof. by rewrite lbS r_lr1 vnormZ vnormE h22 sqrtr1 mulr1 ger0_norm // ltW. Qed.
Lemma r_lq2 : lq A v0 2 = v2.
Proof. by rewrite lqS r_lb2 r_lr1 scalerA mulVf ?scale1r // gt_eqF. Qed.
End Run.

Section P.
Variable F : rcfType.
Variables (eps : F) (fexp flog : F -> F) (feps : F).
Hypothesis eps0 : 0 <= eps.
Variable lv : seq F -> seq F -> res (seq F).
Variable lp : seq F -> seq F -> res (seq F * seq (seq F)).
Hypothesis lapack : lapack_ok lv lp.

(* ---- objects to start from ---------------------------------------------------------- *)
Definition sq_array (n : nat) : odesc := ODesc true false true false (Some [:: n; n]) (Some (Some F64)) F64.
Definition fcall (g : F -> xnum F) : mfarg F := MCall (fun xs => FVec true [seq g t | t <- xs]).

Lemma ex_built n g (deg orth : int) : (2 <= deg)%R -> 
  exists M0, [/\ mf_init fexp flog feps (sq_array n) (fcall g) (no_kw F) deg orth F64 = Ok M0,
    built fexp flog feps n KDense M0, xapplies (mf_fun M0) g, mf_deg M0 = minn `|deg| n &
    (0 <= orth <= minn `|deg| n)%R -> mf_orth M0 = orth].
Proof.
move=> dg; have [_ h] := C62_accepts_iff fexp flog feps (sq_array n) (fcall g) (no_kw F) deg orth F64.
have sq : square_shape (sq_array n) n by exists [::].
have [|M0 E] := h.
  split=> //; first by left.
  by exists n; split=> //; exists (nseq n (g 1)); rewrite map_nseq size_nseq.
exists M0; have [[_ D] [_ [O _]] _ _ [_ [_ Ef]]] := C62_fields sq E.
have D' : mf_deg M0 = minn `|deg| n by lia.
split=> //; first by exists (sq_array n), (fcall g), (no_kw F), deg, orth, F64; split=> //; right.
  by move=> xs; rewrite Ef.
by rewrite -D'.
Qed.

Lemma ap_xap (f : mfun F) (g : F -> F) : xapplies f (fun t => Fin (g t)) -> applies f g.
Proof. by []. Qed.

(* ---- three dimensions ------------------------------------------------------------------ *)
(* [[d, 1, 0], [1, d, 1], [0, 1, d]] *)
Definition P3 (d : F) : 'M[F]_3 :=
  \matrix_(i, j) (if (i == j :> nat)%N then d else if ((i.+1 == j) || (j.+1 == i))%N then 1 else 0).
Definition E3 (i : nat) : 'cV[F]_3 := \col_j (j == i :> nat)%:R.

Lemma P3_sym d : (P3 d)^T = P3 d.
Proof. by apply/matrixP => i j; rewrite !mxE [(j == i :> nat)]eq_sym orbC. Qed.

Lemma sum3 (f : 'I_3 -> F) : \sum_i f i = f 0 + f 1 + f (inord 2).
Proof.
rewrite !big_ord_recl big_ord0 addr0 addrA; congr (f _ + f _ + f _); apply/val_inj => //=.
by rewrite inordK.
Qed.

Lemma colP3 (u w : 'cV[F]_3) : u 0 0 = w 0 0 -> u 1 0 = w 1 0 -> u (inord 2) 0 = w (inord 2) 0 -> u = w.
Proof.
move=> h0 h1 h2; apply/colP => i; case: i => [[|[|[|//]]] hi].
- by rewrite (_ : Ordinal hi = 0) //; exact/val_inj.
- by rewrite (_ : Ordinal hi = 1) //; exact/val_inj.
- by rewrite (_ : Ordinal hi = inord 2) //; apply/val_inj; rewrite /= inordK.
Qed.

Lemma dt3 (u w : 'cV[F]_3) : dt u w = u 0 0 * w 0 0 + u 1 0 * w 1 0 + u (inord 2) 0 * w (inord 2) 0.
Proof. by rewrite dtE sum3. Qed.

Lemma E3dt i j : (i < 3)%N -> (j < 3)%N -> dt (E3 i) (E3 j) = (i == j)%:R.
Proof. by case: i => [|[|[|//]]]; case: j => [|[|[|//]]] _ _; rewrite dt3 !mxE !inordK //=; ring. Qed.

Lemma P3_0 d : P3 d *m E3 0 = d *: E3 0 + 1 *: E3 1.
Proof. by apply: colP3; rewrite mxE sum3 !mxE !inordK //=; ring. Qed.
Lemma P3_1 d : P3 d *m E3 1 = 1 *: E3 0 + d *: E3 1 + 1 *: E3 2.
Proof. by apply: colP3; rewrite mxE sum3 !mxE !inordK //=; ring. Qed.
Lemma P3_1' d : P3 d *m E3 1 = 1 *: E3 2 + d *: E3 1 + 1 *: E3 0.
Proof. by rewrite P3_1 addrAC [1 *: E3 0 + _]addrC addrAC. Qed.
Lemma P3_2 d : P3 d *m E3 2 = d *: E3 2 + 1 *: E3 1.
Proof. by apply: colP3; rewrite mxE sum3 !mxE !inordK //=; ring. Qed.

Lemma vec3 i : (i < 3)%N -> vec 3 (mkseq (fun j => (j == i)%:R : F) 3) = E3 i.
Proof. by move=> hi; apply/colP => j; rewrite !mxE nth_mkseq. Qed.

Lemma unit3 i : (i < 3)%N -> (vnorm (E3 i))^-1 *: E3 i = E3 i.
Proof. by move=> hi; rewrite vnormE E3dt // eqxx sqrtr1 invr1 scale1r. Qed.

(* the stopping tolerance is below 1 *)
Lemma tol_le01 n : (n <= 10)%N -> Num.sqrt n%:R * (1 / 10%:R ^+ 8) <= 1 / 10%:R :> F.
Proof.
move=> hn; have h : Num.sqrt n%:R <= 10%:R :> F.
  have -> : 10%:R = Num.sqrt (10%:R ^+ 2) :> F by rewrite sqrtr_sqr ger0_norm ?ler0n.
  by rewrite ler_wsqrtr // -natrX ler_nat (leq_trans hn).
apply: (@le_trans _ _ (10%:R * (1 / 10%:R ^+ 8))).
  by rewrite ler_wpmul2r // divr_ge0 ?ler01 ?exprn_ge0 ?ler0n.
rewrite ler_pdivl_mulr ?ltr0n // mulrAC -expr2 mulrA mulr1 ler_pdivr_mulr ?exprn_gt0 ?ltr0n // mul1r.
by rewrite ler_weexpn2l // ler1n.
Qed.
Lemma tol_le1 n : (n <= 10)%N -> Num.sqrt n%:R * (1 / 10%:R ^+ 8) <= 1 :> F.
Proof.
by move/tol_le01/le_trans; apply; rewrite ler_pdivr_mulr ?ltr0n // mul1r ler1n.
Qed.

(* ---- C59 ------------------------------------------------------------------------------ *)
(* a run that finds the next Lanczos vector left over by an earlier one *)
Lemma stale_stop n (A : 'M[F]_n) kd dA M x (v0 v1 : 'cV[F]_n) :
  (0 < n)%N -> mf_wf n M -> mf_live kd M -> mf_deg M = 3%N -> mf_orth M = 3 -> size x = n ->
  start (cvec n x) = v0 -> dt v0 v0 = 1 -> dt v0 v1 = 0 -> dt v1 v1 = 1 -> A *m v0 = v1 ->
  colv n (mf_Q M) 1 = v1 -> 2%:R * eps * Num.sqrt n%:R < 1 ->
  exists M', [/\ mf_lanczos eps A kd dA M x = Ret M', mf_wf n M', mf_deg M' = 3%N, mf_fun M' = mf_fun M &
    [/\ (mf_alpha M')`_0 = 0, (mf_beta M')`_0 = 0 & (mf_beta M')`_1 = 0]].
Proof.
move=> n0 W [hd hm] d3 o3 sx E0 h00 h01 h11 A0 Q1 ht.
have [bd [e1 e2 e3]] := mf_resolve_ok kd dA hd.
pose st0 := ASt (cvec n x) (nth 0 (mf_alpha M)) (nth 0 (mf_beta M)) (colv n (mf_Q M)).
have := @kernel_conc F n A eps (mf_rtol F) 3 3 3 4 4 st0 isT isT isT isT.
have al4 := wf_al W; have be4 := wf_be W; have sQ := wf_Q W; rewrite d3 in al4 be4 sQ.
rewrite /= cvecK // -{1}al4 -{1}be4 !mkseq_nth flat_colv // => EK.
rewrite /mf_lanczos e1 (e3 _ hm) d3 o3 EK e2.
set st := akernel _ _ _ _ _ _ _ in EK *.
have tp : 0 < Num.sqrt n%:R * mf_rtol F.
  by rewrite mulr_gt0 ?sqrtr_gt0 ?ltr0n // divr_gt0 ?ltr01 ?exprn_gt0 ?ltr0n.
have S : a_al st 0 = 0 /\ a_be st 0 = 0 /\ a_be st 1 = 0.
  rewrite /st /akernel.
  set s1 := ASt _ _ _ _.
  have V0 : a_V s1 0 = v0 by rewrite /s1 /= /upd /= unitvE.
  have V1 : a_V s1 1 = v1 by rewrite /s1 /= /upd /=.
  have V2 : a_V s1 2 = 0 by rewrite /s1 /= /upd /=.
  have B0 : a_be s1 0 = 0 by rewrite /s1 /= /upd /=.
  have R : aresid A 3 eps 3 0 2 0 s1 = 0.
    rewrite /aresid V0 A0 B0 scale0r subr0 h01 scale0r subr0 /areorth.
    rewrite /aorth V0 V1 V2 [dt v1 v0]dtC h01 normr0 !dt0r normr0.
    have t0 : 0 <= 2%:R * eps * Num.sqrt n%:R by rewrite !mulr_ge0 ?ler0n ?sqrtr_ge0.
    rewrite !(le_gtF t0) !andbF /= h11 normr1 ht /=.
    by rewrite divr1 scale1r subrr.
  rewrite [aloop _ _ _ _ _ _ _ _ _ _ _ _]/= /astep R dt0r sqrtr0 tp /=.
  by rewrite /upd /= unitvE E0 A0 scale0r subr0 h01.
case: S => S1 [S2 S3]; eexists; split=> //.
- case: W => w1 w2 w3 w4 w5 w6 w7 w8; rewrite d3 in w2 w6 w7.
  by split=> //; rewrite /= ?size_mkseq // size_flatV mulnC.
Qed.

Lemma polymxXn n (A : 'M[F]_n) k : polymx 'X^k A = mxpow A k.
Proof.
rewrite /polymx size_polyXn big_ord_recr /= coefXn eqxx scale1r big1 ?add0r // => i _.
by rewrite coefXn ltn_eqF // scale0r.
Qed.

Definition e3 (i : nat) : seq F := mkseq (fun j => (j == i)%:R) 3.

Lemma stop3 (A : 'M[F]_3) x : (forall i, (0 < i < 3)%N -> lb A x i = 1) -> stop_at A x (Num.sqrt 3%:R * (1 / 10%:R ^+ 8)) 3 3.
Proof. by move=> h; split=> //; [move=> i hi; rewrite h // tol_le1|left]. Qed.

Lemma P3_lb0 d i : (0 < i < 3)%N -> lb (P3 d) (E3 0) i = 1.
Proof.
case: i => [|[|[|//]]] // _.
  by apply: (r_lb1 _ _ _ _ (P3_0 d)); rewrite ?E3dt ?ltr01.
by apply: (r_lb2 _ _ _ _ (P3_0 d) _ (P3_1 d)); rewrite ?E3dt ?ltr01.
Qed.
Lemma P3_lb2 d i : (0 < i < 3)%N -> lb (P3 d) (E3 2) i = 1.
Proof.
case: i => [|[|[|//]]] // _.
  by apply: (r_lb1 _ _ _ _ (P3_2 d)); rewrite ?E3dt ?ltr01.
by apply: (r_lb2 _ _ _ _ (P3_2 d) _ (P3_1' d)); rewrite ?E3dt ?ltr01.
Qed.

(* the default orth = 3, the function t^2, the path of three vertices: quad of the
   last unit vector is 1 on a new object and 0 after the first unit vector, be it in
   an earlier call or in an earlier column of the same call *)
Theorem C59_stale_refuted (dA : dty) : eps <= 1 / 10%:R ->
  exists M0 M, [/\ mf_init fexp flog feps (sq_array 3) (fcall (fun t => Fin (t ^+ 2))) (no_kw F) 20 3 F64 = Ok M0,
    mf_run eps lv lp (P3 0) KDense dA M0 [:: CQuad [:: e3 0]] = Some M,
    (mf_quad eps lv lp (P3 0) KDense dA M0 [:: e3 2]).1 = Ret [:: Fin 1] &
    (mf_quad eps lv lp (P3 0) KDense dA M [:: e3 2]).1 = Ret [:: Fin 0] /\
    (mf_quad eps lv lp (P3 0) KDense dA M0 [:: e3 0; e3 2]).1 = Ret [:: Fin 1; Fin 0]].
Proof.
move=> he; have [M0 [E0 B hf d0 o0]] := @ex_built 3 (fun t => Fin (t ^+ 2)) 20 3 isT.
have {}d0 : mf_deg M0 = 3%N by rewrite d0. have {}o0 : mf_orth M0 = 3 by exact: o0.
have [W L Z] := built_ok eps0 (isT : (0 < 3)%N) B.
have S0 : (vnorm (vec 3 (e3 0)))^-1 *: vec 3 (e3 0) = E3 0 by rewrite vec3 // unit3.
have S2 : (vnorm (vec 3 (e3 2)))^-1 *: vec 3 (e3 2) = E3 2 by rewrite vec3 // unit3.
have hs0 : stop_at (P3 0) ((vnorm (vec 3 (e3 0)))^-1 *: vec 3 (e3 0)) (Num.sqrt 3%:R * (1 / 10%:R ^+ 8)) (mf_deg M0) 3.
  by rewrite S0 d0; apply/stop3/P3_lb0.
have hs2 : stop_at (P3 0) ((vnorm (vec 3 (e3 2)))^-1 *: vec 3 (e3 2)) (Num.sqrt 3%:R * (1 / 10%:R ^+ 8)) (mf_deg M0) 3.
  by rewrite S2 d0; apply/stop3/P3_lb2.
have hp : applies (mf_fun M0) (fun t => ('X^2 : {poly F}).[t]) by move=> xs; rewrite hf; apply: eq_map => t; rewrite hornerXn.
have hsz : (size ('X^2 : {poly F}) <= (mf_deg M0).*2)%N by rewrite d0 size_polyXn.
have Q2 i : (i == 0 \/ i == 2)%N -> qform (polymx 'X^2 (P3 0)) (E3 i) = 1.
  move=> hi; rewrite polymxXn /qform /= mulmx1.
  have -> : (E3 i)^T *m (P3 0 *m P3 0) *m E3 i = (P3 0 *m E3 i)^T *m (P3 0 *m E3 i) by rewrite trmx_mul P3_sym !mulmxA.
  by rewrite -/(dt _ _); case: hi => /eqP ->; rewrite ?P3_0 ?P3_2 scale0r add0r scale1r E3dt.
have C0 : after_calls eps lv lp (P3 0) KDense dA M0 M0 by exists [::].
have R0 := C55_gauss eps0 lapack (isT : (0 < 3)%N) (P3_sym 0) B C0 (or_introl erefl) (erefl : size (e3 0) = 3%N) hp hs0 (or_introl (conj (esym d0) hsz)).
have R2 := C55_gauss eps0 lapack (isT : (0 < 3)%N) (P3_sym 0) B C0 (or_introl erefl) (erefl : size (e3 2) = 3%N) hp hs2 (or_introl (conj (esym d0) hsz)).
rewrite !vec3 // !Q2 in R0 R2; [|by right|by left].
have [w [Y [_ E]]] := quad1_run lapack eps0 (isT : (0 < 3)%N) (P3_sym 0) dA W L (or_intror Z) (erefl : size (e3 0) = 3%N) hs0.
set M1 := MF _ _ _ _ _ _ _ _ _ _ _ in E.
have V1 : quad_value 3 M0 (e3 0) w (nth [::] Y 0) = Ret (Fin 1).
  by move: R0; rewrite /= E; case: (quad_value _ _ _ _ _) => //= y [->].
rewrite V1 in E.
exists M0, M1; split=> //; first by rewrite /= E.
suff X : (mf_quad eps lv lp (P3 0) KDense dA M1 [:: e3 2]).1 = Ret [:: Fin 0].
  split=> //; move: X; rewrite /= E; case: (mf_quad1 _ _ _ _ _ _ M1 _) => -[||ex|y] M2 //=.
  by case=> ->.
have C1 : after_calls eps lv lp (P3 0) KDense dA M0 M1 by exists [:: CQuad [:: e3 0]]; rewrite /= E.
have [W1 L1 _] := calls_ok eps0 (isT : (0 < 3)%N) B C1.
have Q1 : colv 3 (mf_Q M1) 1 = E3 1.
  rewrite /M1 /= d0 colv_flat // slot_small //.
  have -> : start (cvec 3 (e3 0)) = E3 0 by [].
  by apply: (r_lq1 _ _ _ _ (P3_0 0)); rewrite ?E3dt ?ltr01.
have t1 : 2%:R * eps * Num.sqrt 3%:R < 1.
  have h : Num.sqrt 3%:R <= 2%:R :> F.
    have -> : 2%:R = Num.sqrt (2%:R ^+ 2) :> F by rewrite sqrtr_sqr ger0_norm ?ler0n.
    by rewrite ler_wsqrtr // -natrX ler_nat.
  apply: (@le_lt_trans _ _ (2%:R * (1 / 10%:R) * 2%:R)).
    by apply: ler_pmul; rewrite ?mulr_ge0 ?ler0n ?sqrtr_ge0 // ler_wpmul2l // ler0n.
  by rewrite mulrAC mulrA mulr1 ltr_pdivr_mulr ?ltr0n // mul1r -natrM ltr_nat.
have P02 : P3 0 *m E3 2 = E3 1 by rewrite P3_2 scale0r add0r scale1r.
have [M2 [E2 W2 d2 f2 [a2 b2 b2']]] := stale_stop dA (isT : (0 < 3)%N) W1 L1 d0 o0 (erefl : size (e3 2) = 3%N) S2
  (@E3dt 2 2 isT isT) (@E3dt 2 1 isT isT) (@E3dt 1 1 isT isT) P02 Q1 t1.
have [v [Y' [[_ eig] E']]] := quad1_eval lapack eps0 (isT : (0 < 3)%N) E2 W2 b2 (erefl : size (e3 2) = 3%N).
have hp2 : entrywise (mf_fun M2) (fun t => t ^+ 2) by rewrite f2.
have i0 : (0 < mf_deg M2)%N by rewrite d2.
have hX : forall t : F, t \in v -> ('X^2 : {poly F}).[t] = t ^+ 2 by move=> t _; rewrite hornerXn.
rewrite /= E' (@quad_value_poly _ _ M2 M2 (e3 2) v Y' (fun t => t ^+ 2) 'X^2 (Ordinal i0) erefl eig hp2 hX) polymxXn /= mulmx1.
congr (Ret [:: Fin _]); rewrite mxE big1 ?mul0r // => k _; rewrite !mxE /=.
by case: eqP => [<-|_]; rewrite ?a2 ?mul0r //; case: eqP => [<-|_]; rewrite ?b2' mul0r.
Qed.

(* ---- two dimensions ---------------------------------------------------------------------- *)
Lemma jac2_cube k (d e : nat -> F) (i0 : 'I_k) : k = 2%N -> i0 = 0%N :> nat ->
  polymx 'X^3 (jacobi k d e) i0 i0 = d 0%N ^+ 3 + 2%:R * d 0%N * e 1%N ^+ 2 + e 1%N ^+ 2 * d 1%N.
Proof.
move=> k2; subst k => h0; have -> : i0 = 0 by exact/val_inj.
rewrite polymxXn /= mulmx1 mxE !big_ord_recl big_ord0 !mxE !big_ord_recl !big_ord0 !mxE /=.
change (bump 0 0) with 1%N; move: (d 0%N) (d 1%N) (e 1%N) => x y z; ring.
Qed.

Lemma qmatE n k (Q : seq F) (i : 'I_n) (j : 'I_k) : qmat n k Q i j = colv n Q j i 0.
Proof. by rewrite !mxE. Qed.

Definition A2t (t : F) : 'M[F]_2 := PropLanczos4.A2 0 t 1.
Definition u2 : 'cV[F]_2 := \col_i [:: 3%:R / 5%:R; 4%:R / 5%:R]`_i.
Definition w2 : 'cV[F]_2 := \col_i [:: - (4%:R / 5%:R); 3%:R / 5%:R]`_i.
Lemma u2u2 : dt u2 u2 = 1. Proof. by rewrite PropLanczos4.dt2 !mxE /=; field. Qed.
Lemma u2w2 : dt u2 w2 = 0. Proof. by rewrite PropLanczos4.dt2 !mxE /=; field. Qed.
Lemma w2w2 : dt w2 w2 = 1. Proof. by rewrite PropLanczos4.dt2 !mxE /=; field. Qed.
Lemma A2t_u t : A2t t *m u2 = (16%:R / 25%:R + 24%:R / 25%:R * t) *: u2 + (12%:R / 25%:R - 7%:R / 25%:R * t) *: w2.
Proof. by apply: PropLanczos4.colP2; rewrite !mxE !big_ord_recl big_ord0 !mxE /=; field. Qed.
Lemma A2t_w t : A2t t *m w2 = (12%:R / 25%:R - 7%:R / 25%:R * t) *: u2 + (9%:R / 25%:R - 24%:R / 25%:R * t) *: w2 + 0 *: 0.
Proof. by apply: PropLanczos4.colP2; rewrite !mxE !big_ord_recl big_ord0 !mxE /=; field. Qed.

Definition e1 : seq F := [:: 1; 0].
Definition u2s : seq F := [:: 3%:R / 5%:R; 4%:R / 5%:R].

(* an off-diagonal entry t below the tolerance: the object stops after one step and
   completes the tridiagonal matrix with an entry of an earlier call, whatever orth *)
Theorem C59_tolerance_refuted (dA : dty) (t : F) (orth : int) : 0 < t < Num.sqrt 2%:R * (1 / 10%:R ^+ 8) ->
  let c := 9%:R / 25%:R - 24%:R / 25%:R * t in
  exists M0 M, [/\ mf_init fexp flog feps (sq_array 2) (fcall (fun t => Fin (t ^+ 3))) (no_kw F) 20 orth F64 = Ok M0,
    mf_run eps lv lp (A2t t) KDense dA M0 [:: CQuad [:: u2s]] = Some M, t ^+ 2 * c != 0,
    (mf_quad eps lv lp (A2t t) KDense dA M0 [:: e1]).1 = Ret [:: Fin 0] /\
    (mf_quad eps lv lp (A2t t) KDense dA M [:: e1]).1 = Ret [:: Fin (t ^+ 2 * c)] &
    (mf_matvec eps lv lp (A2t t) KDense dA M0 e1).1 = Ret [:: Fin 0; Fin 0] /\
    (mf_matvec eps lv lp (A2t t) KDense dA M e1).1 = Ret [:: Fin (t ^+ 2 * c); Fin 0]].
Proof.
case/andP=> t0 tt c; have [M0 [E0 B hf d0 _]] := @ex_built 2 (fun t => Fin (t ^+ 3)) 20 orth isT.
have {}d0 : mf_deg M0 = 2%N by rewrite d0.
have [W L Z] := built_ok eps0 (isT : (0 < 2)%N) B.
have sA : (A2t t)^T = A2t t by exact: A2_sym.
have t1 := lt_le_trans tt (@tol_le01 2 isT).
have c0 : 0 < c.
  rewrite /c subr_gt0; apply: (@le_lt_trans _ _ (24%:R / 25%:R * (1 / 10%:R))).
    by apply: ler_wpmul2l; [rewrite divr_ge0 ?ler0n|exact: ltW].
  rewrite -subr_gt0 (_ : _ - _ = 33%:R / 125%:R); last by field.
  by rewrite divr_gt0 ?ltr0n.
pose b := 12%:R / 25%:R - 7%:R / 25%:R * t.
have bt : Num.sqrt 2%:R * (1 / 10%:R ^+ 8) <= b.
  apply: (le_trans (@tol_le01 2 isT)); rewrite /b ler_subr_addr -ler_subr_addl.
  apply: (@le_trans _ _ (7%:R / 25%:R * (1 / 10%:R))).
    by apply: ler_wpmul2l; [rewrite divr_ge0 ?ler0n|exact: ltW].
  rewrite -subr_ge0 (_ : _ - _ = 44%:R / 125%:R); last by field.
  by rewrite divr_ge0 ?ler0n.
have b0 : 0 < b by apply: lt_le_trans bt; rewrite (lt_trans t0).
have Su : (vnorm (vec 2 u2s))^-1 *: vec 2 u2s = u2.
  by rewrite -[vec 2 u2s]/u2 vnormE u2u2 sqrtr1 invr1 scale1r.
have Se : (vnorm (vec 2 e1))^-1 *: vec 2 e1 = E2 F 0 by exact: E2_start.
have Se' : start (cvec 2 e1) = E2 F 0 := Se.
have hs1 k : k = 2%N -> stop_at (A2t t) ((vnorm (vec 2 e1))^-1 *: vec 2 e1) (Num.sqrt 2%:R * (1 / 10%:R ^+ 8)) k 1.
  by move=> ->; rewrite Se; split=> //; [case=> [|[|//]]|right; rewrite ex_lb1 // ltW].
have hsu : stop_at (A2t t) ((vnorm (vec 2 u2s))^-1 *: vec 2 u2s) (Num.sqrt 2%:R * (1 / 10%:R ^+ 8)) (mf_deg M0) 2.
  rewrite Su d0; split=> //; last by left.
  by case=> [|[|//]] // _; rewrite (r_lb1 u2u2 u2w2 w2w2 b0 (A2t_u t)).
have QV M : mf_wf 2 M -> mf_live KDense M -> mf_deg M = 2%N -> mf_fun M = mf_fun M0 ->
    (mf_quad eps lv lp (A2t t) KDense dA M [:: e1]).1 = Ret [:: Fin (t ^+ 2 * (mf_alpha M)`_1)].
  move=> WM LM dM fM; have hsM := hs1 _ dM.
  have CM : mf_clean M by left; have /andP[_] := wf_orth WM; rewrite dM.
  have [w [Y [[_ eig] E]]] := quad1_run lapack eps0 (isT : (0 < 2)%N) sA dA WM LM CM (erefl : size e1 = 2%N) hsM.
  have hp : entrywise (mf_fun M) (fun t => t ^+ 3) by rewrite fM.
  have i0 : (0 < mf_deg (mf_after (A2t t) M e1 1))%N by rewrite /= dM.
  have hX : forall u : F, u \in w -> ('X^3 : {poly F}).[u] = u ^+ 3 by move=> u _; rewrite hornerXn.
  rewrite /= E (@quad_value_poly _ _ M _ e1 w Y (fun t => t ^+ 3) 'X^3 (Ordinal i0) erefl eig hp hX) jac2_cube //.
  have a0 := after_al WM hsM (isT : (0 < 1)%N); have b1 := after_be WM hsM (leqnn 1).
  rewrite Se' ex_la0 in a0; rewrite Se' (ex_lb1 _ _ (ltW t0)) in b1.
  have a1 : (mf_alpha (mf_after (A2t t) M e1 1))`_1 = (mf_alpha M)`_1 by rewrite /= nth_mkseq // (wf_al WM) dM.
  rewrite [LHS]/= a0 b1 a1; congr (Ret [:: Fin _]).
  have -> : vnorm (cvec 2 e1) ^+ 2 = 1 by rewrite vnorm_sq dt2 !mxE /=; ring.
  by rewrite expr0n mulr0 mul0r !add0r mulr1.
have MV M : mf_wf 2 M -> mf_live KDense M -> mf_deg M = 2%N -> mf_fun M = mf_fun M0 ->
    (mf_matvec eps lv lp (A2t t) KDense dA M e1).1 = Ret [:: Fin (t ^+ 2 * (mf_alpha M)`_1); Fin 0].
  move=> WM LM dM fM; have hsM := hs1 _ dM; have WZ := zero_wf WM.
  have [w [Y [[_ eig] ->]]] := matvec_run lapack eps0 (isT : (0 < 2)%N) sA dA WM LM (erefl : size e1 = 2%N) hsM.
  have hp : entrywise (mf_fun M) (fun t => t ^+ 3) by rewrite fM.
  have i0 : (0 < mf_deg (mf_after (A2t t) (zero_Q M) e1 1))%N by rewrite /= dM.
  have hX : forall u : F, u \in w -> ('X^3 : {poly F}).[u] = u ^+ 3 by move=> u _; rewrite hornerXn.
  rewrite [LHS]/= (@matvec_value_poly _ _ M _ e1 w Y (fun t => t ^+ 3) 'X^3 (Ordinal i0) erefl erefl eig hp hX) -colE.
  set z := col _ _; have Ez : z (Ordinal i0) 0 = t ^+ 2 * (mf_alpha M)`_1.
    rewrite /z mxE jac2_cube //.
    have a0 := after_al WZ hsM (isT : (0 < 1)%N); have b1 := after_be WZ hsM (leqnn 1).
    rewrite Se' ex_la0 in a0; rewrite Se' (ex_lb1 _ _ (ltW t0)) in b1.
    have a1 : (mf_alpha (mf_after (A2t t) (zero_Q M) e1 1))`_1 = (mf_alpha M)`_1 by rewrite /= nth_mkseq // (wf_al WM) dM.
    by rewrite a0 b1 a1 expr0n mulr0 mul0r !add0r.
  have -> : vnorm (cvec 2 e1) = 1 by rewrite vnormE dt2 !mxE /= mulr0 addr0 mulr1 sqrtr1.
  have -> : 1 *: (qmat 2 (mf_deg (mf_after (A2t t) (zero_Q M) e1 1)) (mf_Q (mf_after (A2t t) (zero_Q M) e1 1)) *m z) = z (Ordinal i0) 0 *: E2 F 0.
    rewrite scale1r; apply/colP => i; rewrite mxE (bigD1 (Ordinal i0)) //= big1 ?addr0 => [|j ji].
      by rewrite qmatE colv_flat // slot_small // Se' lq0 !mxE mulrC.
    have j1 : (j : nat) = 1%N.
      by have h := ltn_ord j; move: ji; rewrite -val_eqE /= => ji; clear -h ji dM; lia.
    by rewrite qmatE colv_flat // j1 (_ : (1 == mf_deg M - 1)%N) ?mxE ?mul0r // dM.
  by rewrite Ez /cseq enum_ordSl enum_ordSl enum_ord0 /= !mxE /= mulr1 mulr0.
have R2 : t ^+ 2 * c != 0 by rewrite mulf_neq0 ?expf_neq0 // gt_eqF.
have [w [Y [_ E]]] := quad1_run lapack eps0 (isT : (0 < 2)%N) sA dA W L (or_intror Z) (erefl : size u2s = 2%N) hsu.
set M1 := MF _ _ _ _ _ _ _ _ _ _ _ in E.
have C0 : after_calls eps lv lp (A2t t) KDense dA M0 M0 by exists [::].
have hp : applies (mf_fun M0) (fun t => ('X^3 : {poly F}).[t]) by move=> xs; rewrite hf; apply: eq_map => x; rewrite hornerXn.
have hsz : (size ('X^3 : {poly F}) <= (mf_deg M0).*2)%N by rewrite d0 size_polyXn.
have R0 := C55_gauss eps0 lapack (isT : (0 < 2)%N) sA B C0 (or_introl erefl) (erefl : size u2s = 2%N) hp hsu (or_introl (conj (esym d0) hsz)).
have [y V1] : exists y, quad_value 2 M0 u2s w (nth [::] Y 0) = Ret y.
  by move: R0; rewrite /= E; case: (quad_value _ _ _ _ _) => //= y _; exists y.
rewrite V1 in E.
have C1 : after_calls eps lv lp (A2t t) KDense dA M0 M1 by exists [:: CQuad [:: u2s]]; rewrite /= E.
have [W1 L1 _] := calls_ok eps0 (isT : (0 < 2)%N) B C1.
have a1 : (mf_alpha M1)`_1 = c.
  have -> : (mf_alpha M1)`_1 = la (A2t t) (start (cvec 2 u2s)) 1 by exact: (after_al W hsu (isT : (1 < 2)%N)).
  have -> : start (cvec 2 u2s) = u2 := Su.
  by rewrite (r_la1 u2u2 u2w2 w2w2 b0 (A2t_u t) (dt0r _) (A2t_w t)).
have a0 : (mf_alpha M0)`_1 = 0.
  have sq : square_shape (sq_array 2) 2 by exists [::].
  by have [_ _ [-> _] _ _] := C62_fields sq E0; rewrite d0.
exists M0, M1; split=> //; first by rewrite /= E.
  by rewrite !QV // a1 a0 mulr0.
by rewrite !MV // a1 a0 mulr0.
Qed.

(* ---- C61 -------------------------------------------------------------------------------- *)
(* the eigenvalues 0, 2 of [[1, 1], [1, 1]]; no weight vanishes *)
Lemma ones_eigh k (d e : nat -> F) w Y : k = 2%N -> d 0%N = 1 -> d 1%N = 1 -> e 1%N = 1 -> is_eigh (jacobi k d e) w Y ->
  exists a b, [/\ w = [:: 0; 2%:R] \/ w = [:: 2%:R; 0], nth [::] Y 0 = [:: a; b], a != 0 & b != 0].
Proof.
move=> k2 d0 d1 e1'; subst k; case=> sw sY aY oY eY.
case: w sw eY => [|w0 [|w1 [|]]] // _ eY.
case: Y sY aY oY eY => [|[|a [|b [|? ?]]] [|[|c [|g [|? ?]]] [|? ?]]] //= _ _ oY eY.
move/matrixP: oY => oY; move/matrixP: eY => eY.
have := oY 0 0; have := oY 1 1; have := oY 0 1.
rewrite !mxE !big_ord_recl !big_ord0 !mxE /= !addr0 => o01 o11 o00.
have := eY 0 0; have := eY 0 1; have := eY 1 0; have := eY 1 1.
rewrite !mul_mx_diag !mxE !big_ord_recl !big_ord0 !mxE /= !addr0.
change (bump 0 0) with 1%N; rewrite d0 d1 e1' !mul1r => h11 h10 h01 h00.
have two : (2%:R : F) != 0 by rewrite pnatr_eq0.
have an : a != 0.
  apply/eqP => a0; move: h00 o00; rewrite a0 mul0r add0r => c0; rewrite c0 !mulr0 addr0 => /eqP.
  by rewrite eq_sym oner_eq0.
have bn : b != 0.
  apply/eqP => a0; move: h01 o11; rewrite a0 mul0r add0r => c0; rewrite c0 !mulr0 addr0 => /eqP.
  by rewrite eq_sym oner_eq0.
exists a, b; split=> //.
have ac : w0 = 0 \/ a = c.
  have /eqP : (a - c) * w0 = 0 by rewrite mulrBl -h00 -h10 subrr.
  by rewrite mulf_eq0 subr_eq0 => /orP[/eqP|/eqP]; [right|left].
have bd : w1 = 0 \/ b = g.
  have /eqP : (b - g) * w1 = 0 by rewrite mulrBl -h01 -h11 subrr.
  by rewrite mulf_eq0 subr_eq0 => /orP[/eqP|/eqP]; [right|left].
have W2 x w : x != 0 -> x + x = x * w -> w = 2%:R :> F.
  by move=> xn h; apply: (mulfI xn); rewrite -h mulr_natr mulr2n.
case: ac => [w00|ac]; case: bd => [w10|bd].
- have ca : c = - a by apply/eqP; rewrite -addr_eq0 addrC h00 w00 mulr0.
  have gb : g = - b by apply/eqP; rewrite -addr_eq0 addrC h01 w10 mulr0.
  move: o01; rewrite ca gb mulrNN => /eqP; rewrite -mulr2n -mulr_natr mulf_eq0 (negbTE two) orbF.
  by rewrite mulf_eq0 (negbTE an) (negbTE bn).
- by left; rewrite w00; congr [:: _; _]; apply: (W2 b) => //; rewrite {2}bd.
- by right; rewrite w10; congr [:: _; _]; apply: (W2 a) => //; rewrite {2}ac.
- move: o01; rewrite -ac -bd => /eqP; rewrite -mulr2n -mulr_natr mulf_eq0 (negbTE two) orbF.
  by rewrite mulf_eq0 (negbTE an) (negbTE bn).
Qed.

Lemma P3_unit : P3 1 \in unitmx.
Proof.
pose B : 'M[F]_3 := \matrix_(i, j) nth 0 (nth [::] [:: [:: 0; 1; -1]; [:: 1; -1; 1]; [:: -1; 1; 0]] i) j.
have h : P3 1 *m B = 1%:M.
  apply/matrixP => i j; rewrite !mxE sum3 !mxE !inordK //=.
  case: i => [[|[|[|//]]] hi]; case: j => [[|[|[|//]]] hj] /=; rewrite ?mulr0 ?mul0r ?mulr1 ?mul1r ?addr0 ?add0r ?subrr ?addNr ?add0r ?addr0 //.
by case: (mulmx1_unit h).
Qed.

(* an invertible A, no early stop: the inverse meets an eigenvalue 0 of the compression *)
Theorem C61_ritz_refuted (dA : dty) :
  exists M0, [/\ mf_init fexp flog feps (sq_array 3) (fcall (@xinv F)) (no_kw F) 2 3 F64 = Ok M0,
    P3 1 \in unitmx, stop_at (P3 1) (E3 0) (Num.sqrt 3%:R * (1 / 10%:R ^+ 8)) 2 2 &
    (mf_quad eps lv lp (P3 1) KDense dA M0 [:: e3 0]).1 = Ret [:: PInf]].
Proof.
have [M0 [E0 B hf d0 _]] := @ex_built 3 (@xinv F) 2 3 isT.
have {}d0 : mf_deg M0 = 2%N by rewrite d0.
have [W L Z] := built_ok eps0 (isT : (0 < 3)%N) B.
have hs : stop_at (P3 1) (E3 0) (Num.sqrt 3%:R * (1 / 10%:R ^+ 8)) 2 2.
  split=> //; last by left.
  by case=> [|[|//]] // _; rewrite P3_lb0 // tol_le1.
exists M0; split=> //; first exact: P3_unit.
have S0 : (vnorm (vec 3 (e3 0)))^-1 *: vec 3 (e3 0) = E3 0 by rewrite vec3 // unit3.
have S0' : start (cvec 3 (e3 0)) = E3 0 := S0.
have hs0 : stop_at (P3 1) ((vnorm (vec 3 (e3 0)))^-1 *: vec 3 (e3 0)) (Num.sqrt 3%:R * (1 / 10%:R ^+ 8)) (mf_deg M0) 2.
  by rewrite S0 d0.
have [w [Y [[_ eig] E]]] := quad1_run lapack eps0 (isT : (0 < 3)%N) (P3_sym 1) dA W L (or_intror Z) (erefl : size (e3 0) = 3%N) hs0.
have al0 : la (P3 1) (E3 0) 0 = 1 by apply: (r_la0 _ _ (P3_0 1)); rewrite ?E3dt.
have al1 : la (P3 1) (E3 0) 1 = 1 by apply: (r_la1 _ _ _ _ (P3_0 1) _ (P3_1 1)); rewrite ?E3dt ?ltr01.
have [|||a [b [hw hy an bn]]] := ones_eigh d0 _ _ _ eig.
- by rewrite (after_al W hs0 (isT : (0 < 2)%N)) S0'.
- by rewrite (after_al W hs0 (isT : (1 < 2)%N)) S0'.
- by rewrite (after_be W hs0 (isT : (1 <= 2)%N)) S0' P3_lb0.
have two : (2%:R : F) == 0 = false by rewrite pnatr_eq0.
have sq0 (x : F) : x != 0 -> xinf_of_sign (x ^+ 2) = PInf.
  by move=> xn; rewrite /xinf_of_sign expf_eq0 (negbTE xn) exprn_even_gt0 // xn.
have n1 : vnorm (cvec 3 (e3 0)) = 1 by rewrite -[cvec 3 _]/(vec 3 (e3 0)) vec3 // vnormE E3dt // sqrtr1.
rewrite /= E /quad_value hf hy n1 expr1n.
case: hw => ->; rewrite /np_mul /= /xinv /= eqxx two /= /xinf_of_sign oner_eq0 ltr01 /=; rewrite -!/(xinf_of_sign _) !sq0 //=.
  by rewrite /xinf_of_sign oner_eq0 ltr01.
by rewrite /xinf_of_sign oner_eq0 ltr01.
Qed.
End P.

Print Assumptions C59_stale_refuted.
Print Assumptions C59_tolerance_refuted.
Print Assumptions C61_ritz_refuted.
