(* Concrete Lanczos runs; properties C51 (refutation), C78; examples for C44-C53. *)
From mathcomp Require Import all_ssreflect all_algebra zify ring.
From Verif Require Import Base ModelXtrace LemXtrace ModelLanczos LemLanczos SpecLanczos LemLanczos2 LemLanczos3 LemLanczos4 PropLanczos PropLanczos2 PropLanczos3.
Set Implicit Arguments.
Unset Strict Implicit.
Unset Printing Implicit Defensive.
Import Order.TTheory GRing.Theory Num.Theory.
Local Open Scope ring_scope.

Section Ex.
Variable F : rcfType.
Variable eps : F.
Hypothesis eps0 : 0 <= eps.
Variable G : Type.
Variable unif : G -> rat * G.
Local Notation fresh := (LWork (F := F) None None None true).
Local Notation lanczos_call := (@lanczos_call F eps G unif).
Local Notation lanczos := (@lanczos F eps G unif).

(* [[x, z], [z, y]] and the start vector (1, 0) *)
Definition A2 (x z y : F) : 'M[F]_2 :=
  \matrix_(i, j) (if i == j :> nat then (if i == 0 :> nat then x else y) else z)%N.
Definition E2 (i : nat) : 'cV[F]_2 := \col_j (j == i :> nat)%:R.

Lemma A2_sym x z y : (A2 x z y)^T = A2 x z y.
Proof. by apply/matrixP => i j; rewrite !mxE eq_sym; case: eqP => // e; have -> : i = j by exact/val_inj. Qed.

Lemma colP2 (u w : 'cV[F]_2) : u 0 0 = w 0 0 -> u 1 0 = w 1 0 -> u = w.
Proof.
move=> h0 h1; apply/colP => i; case: i => [[|[|//]] hi].
  by rewrite (_ : Ordinal hi = 0) //; exact/val_inj.
by rewrite (_ : Ordinal hi = 1) //; exact/val_inj.
Qed.

Lemma dt2 (u w : 'cV[F]_2) : dt u w = u 0 0 * w 0 0 + u 1 0 * w 1 0.
Proof. by rewrite dtE big_ord_recl big_ord1 (_ : lift ord0 ord0 = 1) //; exact/val_inj. Qed.

Lemma A2_0 x z y : A2 x z y *m E2 0 = x *: E2 0 + z *: E2 1.
Proof. by apply: colP2; rewrite !mxE !big_ord_recl big_ord0 !mxE /=; ring. Qed.
Lemma A2_1 x z y : A2 x z y *m E2 1 = z *: E2 0 + y *: E2 1.
Proof. by apply: colP2; rewrite !mxE !big_ord_recl big_ord0 !mxE /=; ring. Qed.
Lemma E2dt i j : (i < 2)%N -> (j < 2)%N -> dt (E2 i) (E2 j) = (i == j)%:R.
Proof. by case: i => [|[|//]]; case: j => [|[|//]] _ _; rewrite dt2 !mxE /=; ring. Qed.

Lemma E2_start : start (cvec 2 [:: 1; 0 : F]) = E2 0.
Proof.
have -> : cvec 2 [:: 1; 0 : F] = E2 0 by apply: colP2; rewrite !mxE.
by rewrite /start vnormE E2dt // sqrtr1 invr1 scale1r.
Qed.

Section Tri.
Variables x z y : F.
Hypothesis z0 : 0 <= z.
Local Notation A := (A2 x z y).
Lemma ex_la0 : la A (E2 0) 0 = x.
Proof. by rewrite laE lb0 scale0r subr0 lq0 A2_0 dtDr !dtZr !E2dt //=; ring. Qed.
Lemma ex_lr0 : lr A (E2 0) 0 = z *: E2 1.
Proof. by rewrite lrE ex_la0 lb0 scale0r subr0 lq0 A2_0 addrAC subrr add0r. Qed.
Lemma ex_lb1 : lb A (E2 0) 1 = z.
Proof. by rewrite lbS ex_lr0 vnormZ vnormE E2dt // sqrtr1 mulr1 ger0_norm. Qed.
Lemma ex_lq1 : z != 0 -> lq A (E2 0) 1 = E2 1.
Proof. by move=> h; rewrite lqS ex_lb1 ex_lr0 scalerA mulVf // scale1r. Qed.
Lemma ex_la1 : z != 0 -> la A (E2 0) 1 = y.
Proof.
move=> h; rewrite laE ex_lb1 ex_lq1 // lpS lq0 A2_1 addrAC subrr add0r dtZr E2dt //=; ring.
Qed.
End Tri.

Lemma v2n0 : (\col_(i < 2) [:: 1; 0 : F]`_i) != 0.
Proof. by apply/eqP => /colP/(_ 0); rewrite !mxE => /eqP; rewrite oner_eq0. Qed.

Lemma ex_pre (rtol x z y : F) kd dA orth g : 0 < rtol -> kept kd dA None -> 0 <= z ->
  exists s a b, [/\ stop_at (A2 x z y) (E2 0) (Num.sqrt 2%:R * rtol) 2 s, pair_of (A2 x z y) [:: 1; 0] 2 s a b &
    lanczos (A2 x z y) kd dA (Some [:: 1; 0]) None rtol orth false true None fresh g = Some (Ok (LPairQ (a, b) (basis_of (A2 x z y) [:: 1; 0] orth true 2 s)))].
Proof.
move=> r0 hdt z0.
have [|s [a [b [hs _ hp E]]]] := @pair_run F eps eps0 G unif 2 _ kd dA [:: 1; 0] None rtol orth true None g (A2_sym x z y) r0 v2n0 hdt (erefl _); first by [].
by exists s, a, b; split=> //; rewrite -E2_start.
Qed.

Lemma seq2 (a : seq F) x y : size a = 2%N -> a`_0 = x -> a`_1 = y -> a = [:: x; y].
Proof. by case: a => [|u [|w [|]]] //= _ -> ->. Qed.
Lemma seq1 (a : seq F) x : size a = 1%N -> a`_0 = x -> a = [:: x].
Proof. by case: a => [|u [|]] //= _ ->. Qed.

(* the whole run: a tridiagonal 2 x 2 matrix is reproduced exactly *)
Lemma ex_run (rtol x z y : F) kd dA orth g : 0 < rtol -> kept kd dA None -> Num.sqrt 2%:R * rtol <= z ->
  lanczos (A2 x z y) kd dA (Some [:: 1; 0]) None rtol orth false true None fresh g =
  Some (Ok (LPairQ ([:: x; y], [:: z]) [:: 1; 0; 0; 1])).
Proof.
move=> r0 hd hz; have t0 : 0 < Num.sqrt 2%:R * rtol by rewrite mulr_gt0 // sqrtr_gt0 ltr0n.
have z0 : 0 < z by exact: lt_le_trans hz.
have [s [a [b [hs hp ->]]]] := @ex_pre rtol x z y kd dA orth g r0 hd (ltW z0).
have s2 : s = 2%N.
  apply: (stop_unique hs); split=> //; last by left.
  by case=> [|[|//]] //= _; rewrite ex_lb1 // ltW.
subst s; have [sa sb na nb] := hp.
have zn : z != 0 by rewrite gt_eqF.
have -> : a = [:: x; y].
  apply: seq2 => //; first by rewrite (na 0%N) // E2_start ex_la0.
  by rewrite (na 1%N) // E2_start ex_la1 // ltW.
have -> : b = [:: z] by apply: seq1 => //; rewrite (nb 0%N) // E2_start ex_lb1 // ltW.
congr (Some (Ok (LPairQ _ _))); rewrite /basis_of /okeep /flatV /= E2_start !slot_small // lq0 ex_lq1 //; last exact: ltW.
by rewrite /cseq !enum_ordSl enum_ord0 /= !mxE.
Qed.

(* off-diagonal entry below the tolerance: early stop after one step *)
Lemma ex_stop (rtol x z y : F) kd dA orth g : 0 < rtol -> kept kd dA None -> 0 <= z < Num.sqrt 2%:R * rtol ->
  lanczos (A2 x z y) kd dA (Some [:: 1; 0]) None rtol orth false true None fresh g =
  Some (Ok (LPairQ ([:: x; 0], [:: z]) [:: 1; 0; 0; 0])).
Proof.
move=> r0 hd /andP[z0 hz].
have [s [a [b [hs hp ->]]]] := @ex_pre rtol x z y kd dA orth g r0 hd z0.
have s1 : s = 1%N.
  apply: (stop_unique hs); split=> //; last by right; rewrite ex_lb1.
  by case=> [|[|//]].
subst s; have [sa sb na nb] := hp.
have -> : a = [:: x; 0].
  apply: seq2 => //; first by rewrite (na 0%N) // E2_start ex_la0.
  by rewrite (na 1%N).
have -> : b = [:: z] by apply: seq1 => //; rewrite (nb 0%N) // E2_start ex_lb1.
congr (Some (Ok (LPairQ _ _))); rewrite /basis_of /okeep /flatV /= E2_start !slot_small // lq0.
by rewrite /cseq !enum_ordSl enum_ord0 /= !mxE.
Qed.

Lemma lanczos_nobasis n (A : 'M[F]_n) kd dA v deg rtol orth g ab Q :
  A^T = A -> 0 < rtol -> (\col_(i < n) v`_i) != 0 -> kept kd dA None ->
  lanczos A kd dA (Some v) deg rtol orth false true None fresh g = Some (Ok (LPairQ ab Q)) ->
  lanczos A kd dA (Some v) deg rtol orth false false None fresh g = Some (Ok (LPair ab.1 ab.2)).
Proof.
move=> sA r0 v0 hdt H.
have [d0 hd sv] : [/\ 0 < eff_deg n deg, dA <> OtherDtype & size v = n].
  by move: H; rewrite /ModelLanczos.lanczos; case E: (lanczos_call _ _ _ _ _ _ _ _ _ _ _) => [[out|e]|] // _; exact: call_pre E.
move: H.
have [s [a [b [hs _ hp ->]]]] := @pair_run F eps eps0 G unif n A kd dA v deg rtol orth true None g sA r0 v0 hdt sv d0.
have [s' [a' [b' [hs' _ hp' ->]]]] := @pair_run F eps eps0 G unif n A kd dA v deg rtol orth false None g sA r0 v0 hdt sv d0.
by case=> <- _ /=; have [-> ->] := pair_det hs hs' hp hp'.
Qed.

(* ---- C51, refutation --------------------------------------------------------- *)
(* the tolerance is absolute: scaling the matrix by a small c > 0 makes the
   iteration stop, and the diagonal is no longer c times the original one *)
Theorem C51_matrix_scale_refuted (rtol : F) kd dA orth g : 0 < rtol -> Num.sqrt 2%:R * rtol <= 1 -> kept kd dA None ->
  exists (A : 'M[F]_2) (v : seq F) (c : F) a b a' b',
    [/\ A^T = A, 0 < c,
      lanczos A kd dA (Some v) None rtol orth false false None fresh g = Some (Ok (LPair a b)),
      lanczos (c *: A) kd dA (Some v) None rtol orth false false None fresh g = Some (Ok (LPair a' b')) &
      a' <> [seq c * x | x <- a]].
Proof.
move=> r0 r1 hd; exists (A2 0 1 1), [:: 1; 0], rtol, [:: 0; 1], [:: 1], [:: 0; 0], [:: rtol].
have cA : rtol *: A2 0 1 1 = A2 0 rtol rtol.
  by apply/matrixP => i j; rewrite !mxE; case: ifP => // _; rewrite ?mulr1 //; case: ifP; rewrite ?mulr0 ?mulr1.
split=> //; first exact: A2_sym.
- by apply: (@lanczos_nobasis _ _ _ _ _ _ _ _ _ ([:: 0; 1], [:: 1])) => //; [exact: A2_sym|exact: v2n0|exact: ex_run].
- rewrite cA; apply: (@lanczos_nobasis _ _ _ _ _ _ _ _ _ ([:: 0; 0], [:: rtol])) => //; [exact: A2_sym|exact: v2n0|].
  apply: ex_stop => //; rewrite ltW //= ltr_pmull // -{1}sqrtr1 ltr_sqrt ?ltr0n ?ltr1n //.
- by rewrite /= mulr0 mulr1 => - [] /esym /eqP; rewrite gt_eqF.
Qed.
End Ex.

(* ---- C78 ------------------------------------------------------------------- *)
(* when do the kernel's results reach the arrays that lanczos() returns?  Always
   for a single-precision operator; for a double-precision one exactly when the
   start vector is in double precision and rtol is a Python float *)
Theorem C78_results_reach_caller (k : okind) (dv dA : dty) (fr : bool) : dA <> OtherDtype ->
  exists bd, resolve k dv dA fr = Some bd /\ (b_out bd <-> dA = F32 \/ dA = F64 /\ dv = F64 /\ fr).
Proof.
by case: k => [||d]; case: dv; case: dA; case: fr => // _; eexists; (split; first by []); split=> //; (try by case=> // -[] // _ []); move=> _; auto.
Qed.

(* otherwise lanczos() returns the arrays as allocated: all zeros, whatever the
   operator, the start vector and the parameters *)
Theorem C78_results_lost_refuted (F : rcfType) (eps : F) (G : Type) (unif : G -> rat * G)
    n (A : 'M[F]_n) k (v0 : option (seq F)) deg rtol orth rb dtype fr g :
  ~ (dtype = Some F64 \/ dtype = None /\ product_dtype k = F64) \/ ~~ fr ->
  (if v0 is Some v then size v = n else True) -> 0 < eff_deg n deg ->
  exists out, lanczos_call eps unif A k F64 v0 deg rtol orth rb dtype (LWork None None None fr) g = Some (Ok out) /\
   [/\ forall x, x \in o_alpha out -> x = 0, forall x, x \in o_beta out -> x = 0 & forall x, x \in o_Q out -> x = 0].
Proof.
move=> hd hv d0.
have sv : size (if v0 is Some x then x else (unif_vec F unif n g).1) = n.
  case: v0 hv => // _; elim: (n) g => [//|m IH] g /=.
  by case: (unif g) => u g1; have := IH g1; case: (unif_vec _ _ _ _) => us g2 /= ->.
have [|bd [rE bo]] := @C78_results_reach_caller k (if dtype is Some d then d else product_dtype k) F64 fr; first by [].
have {bo}bo : b_out bd = false.
  apply/negP => /bo [//|[_ [h1 h2]]]; case: hd => [hd|]; last by rewrite h2.
  by apply: hd; case: (dtype) h1 => [d ->|h1]; [left|right].
rewrite /lanczos_call -/(eff_deg n deg) d0 /= sv eqxx /= !size_nseq !eqxx /= rE.
set o := if (orth < 0) || _ then _ else _; set c := if rb then eff_deg n deg else _.
have o0 : 0 <= o <= eff_deg n deg by rewrite /o; case: ifP; lia.
have hc : 1 <= c /\ (2 <= eff_deg n deg -> 2 <= c) by rewrite /c /npclip; case: (rb); lia.
case: (@C45_kernel_in_bounds F eps n A _ (eff_deg n deg) rtol o (0 :: nseq `|eff_deg n deg| 0) (0 :: nseq `|eff_deg n deg| 0) (nseq (n * `|c|) 0) `|c|%N sv)
  => [||||||st [-> _]]; rewrite /= ?size_nseq //; try lia.
have z l x : x \in (nseq l 0 : seq F) -> x = 0 by rewrite mem_nseq => /andP[_ /eqP].
rewrite bo; eexists; split; first by [].
split=> x; [exact: (z `|eff_deg n deg|.+1%N)|exact: (z `|eff_deg n deg|.+1%N)|exact: z].
Qed.

(* e.g. rtol=0 on a dense double-precision matrix; or dtype=float32 *)
Example C78_ex : (exists bd, resolve KDense F64 F64 false = Some bd /\ b_ov bd = (F32, WDense) /\ b_out bd = false) /\
  (exists bd, resolve KDense F32 F64 true = Some bd /\ b_out bd = false) /\
  (exists bd, resolve KDense F64 F64 true = Some bd /\ b_ov bd = (F64, WDense) /\ b_out bd) /\
  (exists bd, resolve KSparse F64 F64 true = Some bd /\ b_ov bd = (F64, WSparse) /\ b_out bd) /\
  (exists bd, resolve (KObject F64) F64 F64 true = Some bd /\ b_ov bd = (F64, WObject) /\ b_out bd).
Proof. by do !split; eexists. Qed.

(* ---- the hypotheses of C44-C53 are met ----------------------------------------- *)
Section Ex2.
Variable F : rcfType.
Variable G : Type.
Variable unif : G -> rat * G.
Variable g : G.
Local Notation fresh := (LWork (F := F) None None None true).

(* validation: 5 steps, window of 3, one re-orthogonalisation, N = 10 *)
Example C44_ex : validate_lanczos 10 3 5 1 (Some (Fin (1 : F))) None = Ok (10, 3, 5, 1, Fin (1 / 10%:R), Fin 0) /\
  validate_lanczos (F := F) 1 3 5 1 None None = Err AssertionError /\ cmod (-1) 3 = 2 /\ param_ncv 1 4 10 = 2.
Proof. by []. Qed.

(* 2 x 3: not rejected, undefined *)
Example C45_ex : lanczos_call (F := F) 0 unif (0 : 'M[F]_(2, 3)) KDense F64 (Some [:: 1; 1; 1]) None 1 0 false None fresh g = None.
Proof. by apply: C45_nonsquare_undefined. Qed.

(* three steps on a 3 x 3 matrix with a window of two vectors *)
Example C46_ex (A : 'M[F]_3) : exists k st, (0 < k <= 3)%N /\
  lanczos_recurrence 0 A [:: 1; 1; 0] 3%N%:Z 1 0 (nseq 4 0) (nseq 4 0) (nseq 6 0) 2 = Some st /\
  (k_alpha st)`_0 = la A ((vnorm (\col_(i < 3) [:: 1; 1; 0 : F]`_i))^-1 *: \col_(i < 3) [:: 1; 1; 0 : F]`_i) 0.
Proof.
have [k hk] := @stop_exists F 3 A ((vnorm (\col_(i < 3) [:: 1; 1; 0 : F]`_i))^-1 *: \col_(i < 3) [:: 1; 1; 0 : F]`_i) (Num.sqrt 3%:R * 1) 3 (erefl _).
have [||||||st [h1 h2 _ _ _]] := @C46_window_is_enough F 0 3 A [:: 1; 1; 0] 3 1 0 (nseq 4 0) (nseq 4 0) (nseq 6 0) 2 k _ _ _ _ _ _ hk; rewrite ?size_nseq //.
have [hk1 _ _] := hk; exists k, st; split=> //; split=> //; rewrite h2.
by case/andP: hk1 => ->.
Qed.

(* C47, C48, C53, C51: the run of ex_run has no early stop (rtol = 1/2, z = 1) *)
Example C47_ex : exists a b Q,
  [/\ lanczos (F := F) 0 unif (A2 0 1 1) KDense F64 (Some [:: 1; 0]) None (1 / 2%:R) 0 false true None fresh g = Some (Ok (LPairQ (a, b) Q)),
      (forall x, x \in b -> Num.sqrt 2%:R * (1 / 2%:R) <= x) & size b = 1%N].
Proof.
have h : Num.sqrt 2%:R * (1 / 2%:R) <= (1 : F).
  rewrite mul1r ler_pdivr_mulr ?ltr0n // mul1r -[X in _ <= X](@ger0_norm F) ?ler0n // -sqrtr_sqr ler_sqrt -natrX ?ltr0n ?ler_nat //.
exists [:: 0; 1], [:: 1], [:: 1; 0; 0; 1]; split=> //; last by move=> x; rewrite inE => /eqP->.
have p : 0 < 1 / 2%:R :> F by rewrite divr_gt0 ?ltr0n ?ltr01.
by apply: ex_run => //; right; split=> //; right; split.
Qed.

(* C50: diag(3, 5) with start vector e_0 stops after one step with residual 0 *)
Example C50_ex : exists a b Q,
  lanczos (F := F) 0 unif (A2 3%:R 0 5%:R) KDense F64 (Some [:: 1; 0]) None 1 0 false true None fresh g = Some (Ok (LPairQ (a, b) Q)) /\
  (0 < 1 < size a)%N /\ b`_0 = 0.
Proof.
exists [:: 3%:R; 0], [:: 0], [:: 1; 0; 0; 0]; split=> //.
apply: ex_stop; rewrite ?lexx ?mulr1 ?sqrtr_gt0 ?ltr0n ?ltr01 //; by right; split=> //; right; split.
Qed.
End Ex2.

Print Assumptions C51_matrix_scale_refuted.
Print Assumptions C78_results_reach_caller.
Print Assumptions C78_results_lost_refuted.
