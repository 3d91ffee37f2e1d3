(* C72, C73: symmetric and haar. *)
From mathcomp Require Import all_ssreflect all_algebra zify ring.
From Verif Require Import Base ModelTyping ModelRandom ModelRandom2 PropTqli LemFill PropTrace.
Set Implicit Arguments.
Unset Strict Implicit.
Unset Printing Implicit Defensive.
Import Order.TTheory GRing.Theory Num.Theory.
Local Open Scope ring_scope.

Section P.
Variable F : rcfType.
Variable G : Type.
Variable unif : G -> rat * G.
Variable gauss : G -> F * G.
Variable qr_q : forall n, 'M[F]_n -> 'M[F]_n.
Variable ortho_frozen : nat -> option exn.
Variable ortho_rvs : forall n, G -> 'M[F]_n * G.
Local Notation symmetric := (@symmetric F G unif gauss qr_q).
Local Notation haar := (@haar F G unif ortho_frozen ortho_rvs).

(* spec: symmetric, with eigenvalues e counted with multiplicity *)
Definition with_spectrum n (A : 'M[F]_n) (e : seq F) : Prop :=
  [/\ size e = n, A^T = A & char_poly A = \prod_(x <- e) ('X - x%:P)].
Definition psd n (A : 'M[F]_n) : Prop := forall x : 'cV[F]_n, 0 <= (x^T *m A *m x) 0 0.

Lemma prod_seq n (e : seq F) : size e = n ->
  \prod_(i < n) ('X - ((\row_(j < n) e`_j) 0 i)%:P) = \prod_(x <- e) ('X - x%:P).
Proof. by move=> s; rewrite (big_nth 0) s big_mkord; apply: eq_bigr => i _; rewrite mxE. Qed.

Lemma conj_spectrum n (Q : 'M[F]_n) (e : seq F) : Q^T *m Q = 1%:M -> size e = n ->
  with_spectrum (Q *m diag_mx (\row_j e`_j) *m Q^T) e.
Proof.
move=> o s; split=> //; first by rewrite !trmx_mul trmxK tr_diag_mx mulmxA.
by rewrite char_poly_simi // char_poly_diag prod_seq.
Qed.

Lemma conj_qf n (Q : 'M[F]_n) (e : seq F) (x : 'cV[F]_n) :
  (x^T *m (Q *m diag_mx (\row_j e`_j) *m Q^T) *m x) 0 0 = \sum_(i < n) e`_i * ((Q^T *m x) i 0) ^+ 2.
Proof.
have -> : x^T *m (Q *m diag_mx (\row_j e`_j) *m Q^T) *m x = (Q^T *m x)^T *m diag_mx (\row_j e`_j) *m (Q^T *m x).
  by rewrite trmx_mul trmxK !mulmxA.
by rewrite mxE; apply: eq_bigr => i _; rewrite mul_mx_diag !mxE -!mulrA mulrCA expr2.
Qed.

Lemma sym_half n (B : 'M[F]_n) : B^T = B -> 2%:R^-1 *: (B + B^T) = B.
Proof. by move=> ->; rewrite -mulr2n -scaler_nat scalerA mulVf ?scale1r // pnatr_eq0. Qed.

Lemma draws_F_unif m g : draws (unif_F F unif) m g = ([seq ratr x | x <- (draws unif m g).1], (draws unif m g).2).
Proof. by apply: (@draws_map G _ _ (fun x => ratr x : F)) => g1; rewrite /unif_F; case: (unif g1). Qed.

Lemma range_bound (b : bool) (u : F) : 0 <= u -> u < 1 ->
  (if b then 0 else -1) <= (if b then 0 else -1) + (1 - (if b then 0 else -1)) * u < 1.
Proof.
move=> u0 u1; case: b; first by rewrite subr0 mul1r add0r u0.
have t0 : 0 < 1 + 1 :> F by rewrite -[1 + 1]/(2%:R) ltr0n.
rewrite opprK; apply/andP; split; first by rewrite ler_addl mulr_ge0 // ltW.
by rewrite addrC ltr_subl_addl -[X in _ < X]mulr1 ltr_pmul2l.
Qed.

(* spec: the strict upper triangle of S, read row by row *)
Definition upper n (S : 'M[F]_n) : seq F :=
  [seq S i j | i <- enum 'I_n, j <- [seq j : 'I_n <- enum 'I_n | (i < j)%N]].

Lemma iotaS_rcons a m : iota a m.+1 = rcons (iota a m) (a + m)%N.
Proof. by rewrite -cats1 -addn1 iotaD. Qed.

Lemma off_S n m : (m < n)%N ->
  (m.+1 * n - (m.+1 * m.+2) %/ 2 = m * n - (m * m.+1) %/ 2 + (n - m.+1))%N.
Proof.
move=> h; have e : ((m.+1 * m.+2) %/ 2 = (m * m.+1) %/ 2 + m.+1)%N.
  by rewrite -[X in (_ + X)%N](@mulnK _ 2) // -divnDr ?dvdn_mull //; congr (_ %/ _)%N; lia.
have u : ((m * m.+1) %/ 2 <= m * n)%N by apply: (leq_trans (leq_div _ _)); rewrite leq_mul2l h orbT.
by rewrite e mulSn; move: ((m * m.+1) %/ 2)%N (m * n)%N u => q p; lia.
Qed.

Lemma off_end n : (n * n - (n * n.+1) %/ 2 = n * n.-1 %/ 2)%N.
Proof.
have [->//|n0] := posnP n.
have e2 : (n * n.+1 = n * n.-1 + n * 2)%N by rewrite -mulnDr; congr (_ * _)%N; lia.
have e3 : (n * n = n * n.-1 + n)%N by rewrite -[X in (_ + X)%N]muln1 -mulnDr addn1 prednK.
rewrite e2 divnDr ?dvdn_mull // mulnK // e3.
have {1}-> : (n * n.-1 = n * n.-1 %/ 2 * 2)%N.
  by rewrite divnK // dvdn2 oddM; case: (n) n0 => //= k _; case: (odd k).
by move: (n * n.-1 %/ 2)%N => q; lia.
Qed.

Lemma off_le n m : (m <= n)%N -> (m * n - (m * m.+1) %/ 2 <= n * n.-1 %/ 2)%N.
Proof.
move=> h; rewrite -off_end.
suff H k : (m + k <= n)%N -> (m * n - (m * m.+1) %/ 2 <= (m + k) * n - ((m + k) * (m + k).+1) %/ 2)%N.
  by have := H (n - m)%N; rewrite subnKC // => /(_ (leqnn n)).
elim: k => [|k IH] hk; first by rewrite addn0.
by rewrite addnS in hk *; rewrite off_S // (leq_trans (IH (ltnW hk))) // leq_addr.
Qed.

Lemma upper_square n (v dg : seq F) : size v = (n * n.-1 %/ 2)%N -> upper (squareform n v dg) = v.
Proof.
move=> sv.
have row (i : 'I_n) : [seq squareform n v dg i j | j <- [seq j : 'I_n <- enum 'I_n | (i < j)%N]] =
    take (n - i.+1) (drop (i * n - (i * i.+1) %/ 2) v).
  have E : [seq val j | j <- [seq j : 'I_n <- enum 'I_n | (i < j)%N]] = iota i.+1 (n - i.+1).
    have := filter_map val (fun k => (i < k)%N) (enum 'I_n); rewrite val_enum_ord => <-.
    have -> : iota 0 n = iota 0 i.+1 ++ iota i.+1 (n - i.+1) by rewrite -iotaD subnKC.
    rewrite filter_cat (eq_in_filter (a2 := pred0)) ?filter_pred0; last by move=> k; rewrite mem_iota /= add0n ltnS leqNgt => /negbTE.
    by rewrite cat0s; apply/all_filterP/allP => k; rewrite mem_iota => /andP[].
  have -> : [seq squareform n v dg i j | j <- [seq j : 'I_n <- enum 'I_n | (i < j)%N]] =
      [seq nth 0 v (sq_index n i k) | k <- [seq val j | j <- [seq j : 'I_n <- enum 'I_n | (i < j)%N]]].
    rewrite -map_comp; apply/eq_in_map => j; rewrite mem_filter => /andP[h _].
    by rewrite /= mxE (ltn_eqF h) (minn_idPl (ltnW h)) (maxn_idPr (ltnW h)).
  have hl : ((i * n - (i * i.+1) %/ 2) + (n - i.+1) <= size v)%N by rewrite sv -off_S // off_le.
  rewrite E; apply: (@eq_from_nth _ 0) => [|k].
    by rewrite size_map size_iota size_takel // size_drop leq_subRL ?(leq_trans (leq_addr _ _) hl).
  rewrite size_map size_iota => hk; rewrite (nth_map 0%N) ?size_iota // nth_iota // nth_take // nth_drop.
  by rewrite /sq_index addKn.
rewrite /upper (eq_map row).
have -> : [seq take (n - (i : 'I_n).+1) (drop (i * n - (i * i.+1) %/ 2) v) | i <- enum 'I_n] =
    [seq take (n - m.+1) (drop (m * n - (m * m.+1) %/ 2) v) | m <- iota 0 n].
  by rewrite -(val_enum_ord n) -[RHS]map_comp; apply: eq_map.
have H m : (m <= n)%N -> flatten [seq take (n - m.+1) (drop (m * n - (m * m.+1) %/ 2) v) | m <- iota 0 m] =
    take (m * n - (m * m.+1) %/ 2) v.
  elim: m => [|m IH] h; first by rewrite mul0n take0.
  by rewrite iotaS_rcons map_rcons flatten_rcons (IH (ltnW h)) add0n off_S // takeD.
by rewrite H // off_end take_oversize // sv.
Qed.

(* the calls that return: two distribution names, n > 0, ew absent or of length n *)
Lemma symmetric_cases n d pd ew g :
  match symmetric n d pd ew g with
  | Ok (A, g') => exists e (B : 'M[F]_n), let Q := qr_q B in
      [/\ size e = n, (0 < n)%N, A = 2%:R^-1 *: (Q *m diag_mx (\row_j e`_j) *m Q^T + (Q *m diag_mx (\row_j e`_j) *m Q^T)^T),
          d <> DOther &
          match ew with
          | Some e' => e = e'
          | None => exists g1, let lo : F := if pd then 0 else -1 in e = [seq lo + (1 - lo) * ratr x | x <- (draws unif n g1).1]
          end]
  | Err err => err = ValueError /\ (d = DOther \/ n = 0%N \/ exists2 e, ew = Some e & size e <> n)
  end.
Proof.
rewrite /symmetric; case: d => //; last by split=> //; left.
1,2: case: (draws _ (n * n.-1 %/ 2) g) => v g1; rewrite draws_F_unif.
1,2: move: (draws unif n g1).2 => g2; case: (n =P 0%N) => [n0|/eqP n0]; first by (split=> //; right; left).
1,2: case: ew => [e|].
1,3: case: (size e =P n) => [se|ne] /=; [|by (split=> //; right; right; exists e)].
1,2: by exists e, (squareform n v [seq ratr x | x <- (draws unif n g1).1]); split=> //; rewrite lt0n.
1,2: rewrite /unif_range draws_F_unif size_map size_map (size_draws unif) eqxx /=.
1,2: eexists; exists (squareform n v [seq ratr x | x <- (draws unif n g1).1]); split=> //.
all: try by rewrite lt0n.
1,3: by rewrite !size_map (size_draws unif).
all: by exists g2; rewrite -map_comp.
Qed.

(* ---- C72 ------------------------------------------------------------------------------ *)
(* the orthogonal factor is that of a symmetric matrix whose strict upper triangle,
   read row by row, is the first n(n-1)/2 draws and whose diagonal is the next n *)
Theorem C72_layout n d pd ew g A g' : symmetric n d pd ew g = Ok (A, g') ->
  exists (S : 'M[F]_n) e, let Q := qr_q S in let D := draws (if d is DNormal then gauss else unif_F F unif) (n * n.-1 %/ 2) g in
  [/\ S^T = S, upper S = D.1, [seq S i i | i <- enum 'I_n] = [seq ratr x | x <- (draws unif n D.2).1], size e = n &
      A = 2%:R^-1 *: (Q *m diag_mx (\row_j e`_j) *m Q^T + (Q *m diag_mx (\row_j e`_j) *m Q^T)^T)].
Proof.
have sym (v dg : seq F) : (squareform n v dg)^T = squareform n v dg.
  by apply/matrixP => i j; rewrite !mxE eq_sym minnC maxnC; case: eqP => // ->.
have dia (v dg : seq F) : size dg = n -> [seq squareform n v dg i i | i <- enum 'I_n] = dg.
  move=> sd; rewrite -[RHS](mkseq_nth 0) sd /mkseq -(val_enum_ord n) -[RHS]map_comp; apply: eq_map => i /=.
  by rewrite mxE eqxx.
rewrite /symmetric; case: d => //.
1: have := size_draws (unif_F F unif) (n * n.-1 %/ 2) g.
2: have := size_draws gauss (n * n.-1 %/ 2) g.
all: case: (draws _ (n * n.-1 %/ 2) g) => v g1 /= sv; rewrite draws_F_unif /=.
all: have sd : size [seq ratr x : F | x <- (draws unif n g1).1] = n by rewrite size_map (size_draws unif).
all: case: (n =P 0%N) => // n0.
all: case: ew => [e|]; [|rewrite /unif_range draws_F_unif]; case: eqP => //= se [<- _].
all: by eexists (squareform n v _), _; split; [exact: sym|exact: upper_square|exact: dia|exact: se|].
Qed.

Theorem C72_symmetric n d pd ew g A g' : symmetric n d pd ew g = Ok (A, g') -> A^T = A.
Proof.
have := symmetric_cases n d pd ew g; case: (symmetric n d pd ew g) => // -[B g1] H [<- _]; move: H.
by move=> [e [C /= [_ _ -> _ _]]]; rewrite linearZ /= linearD /= trmxK addrC.
Qed.

Hypothesis qrP : forall n (A : 'M[F]_n), (qr_q A)^T *m qr_q A = 1%:M.
Hypothesis unifP : forall g, 0 <= (unif g).1 < 1.

(* the eigenvalues are those asked for, whatever is drawn *)
Theorem C72_spectrum n d pd e g : d <> DOther -> (0 < n)%N -> size e = n ->
  exists A g', symmetric n d pd (Some e) g = Ok (A, g') /\ with_spectrum A e.
Proof.
move=> hd n0 se; have := symmetric_cases n d pd (Some e) g; case: (symmetric n d pd (Some e) g) => [[A g']|err].
  move=> [e' [B /= [s1 _ EA _ ee]]]; exists A, g'; split=> //; subst e'.
  have W := conj_spectrum (qrP B) se; rewrite EA sym_half //; by case: W.
move=> [_ [|[|[e' [<-]]]]] //; by move=> n0'; rewrite n0' in n0.
Qed.

(* drawn eigenvalues lie in [-1, 1), and in [0, 1) with pd, where the matrix is
   positive semidefinite *)
Theorem C72_drawn n d pd g : d <> DOther -> (0 < n)%N ->
  exists A g' e, symmetric n d pd None g = Ok (A, g') /\ with_spectrum A e /\
    (forall x, x \in e -> (if pd then 0 else -1) <= x < 1) /\ (pd -> psd A).
Proof.
move=> hd n0; have := symmetric_cases n d pd None g; case: (symmetric n d pd None g) => [[A g']|err]; last first.
  by move=> [_ [|[n0'|[e' []]]]] //; rewrite n0' in n0.
move=> [e [B /= [s1 _ EA _ [g1 ee]]]]; exists A, g', e; split=> //.
have W := conj_spectrum (qrP B) s1; have EA' : A = qr_q B *m diag_mx (\row_j e`_j) *m (qr_q B)^T.
  by rewrite EA sym_half //; case: W.
have hx x : x \in e -> (if pd then 0 else -1) <= x < 1.
  rewrite ee => /mapP[u /(draws_unif unifP) /andP[u0 u1] ->].
  have r0 : 0 <= ratr u :> F by rewrite ler0q.
  have r1 : ratr u < 1 :> F by rewrite -(rmorph1 (ratr_rmorphism F)) ltr_rat.
  exact: range_bound.
split; first by rewrite EA'.
split=> // p x; rewrite EA' conj_qf sumr_ge0 // => i _; rewrite mulr_ge0 // ?sqr_ge0 //.
by have := hx e`_i; rewrite p mem_nth ?s1 // => /(_ isT) /andP[].
Qed.

(* pd=True promises a positive (semi)definite matrix, "clipping eigenvalues as
   necessary"; given eigenvalues are never clipped *)
Theorem C72_pd_refuted n d e g x0 : d <> DOther -> (0 < n)%N -> size e = n -> x0 \in e -> x0 < 0 ->
  exists A g', symmetric n d true (Some e) g = Ok (A, g') /\ ~ psd A.
Proof.
move=> hd n0 se xe x0n; have := symmetric_cases n d true (Some e) g; case: (symmetric n d true (Some e) g) => [[A g']|err]; last first.
  by move=> [_ [|[n0'|[e' [<-]]]]] //; rewrite n0' in n0.
move=> [e' [B /= [s1 _ EA _ ee]]]; exists A, g'; split=> //; subst e'.
have EA' : A = qr_q B *m diag_mx (\row_j e`_j) *m (qr_q B)^T.
  by rewrite EA sym_half //; case: (conj_spectrum (qrP B) se).
have /(nthP 0) [i hi ei] := xe; rewrite se in hi.
move=> /(_ (qr_q B *m delta_mx (Ordinal hi) 0)); rewrite EA' conj_qf mulmxA qrP mul1mx.
rewrite (bigD1 (Ordinal hi)) //= big1 ?addr0; last by move=> j jn; rewrite mxE (negbTE jn) expr0n mulr0.
by rewrite mxE !eqxx expr1n mulr1 ei leNgt x0n.
Qed.

(* everything else is a ValueError *)
Theorem C72_errors n d pd ew g err : symmetric n d pd ew g = Err err ->
  err = ValueError /\ (d = DOther \/ n = 0%N \/ exists2 e, ew = Some e & size e <> n).
Proof. by have := symmetric_cases n d pd ew g; case: (symmetric n d pd ew g) => [[]|e] // H [<-]. Qed.

(* ---- C73 ------------------------------------------------------------------------------ *)
Hypothesis orthoP : forall n g, (ortho_rvs n g).1^T *m (ortho_rvs n g).1 = 1%:M.

Theorem C73_haar n ew g : ortho_frozen n = None ->
  match haar n ew g with
  | Ok (A, _) => exists e, with_spectrum A e /\
      match ew with Some e' => e = e' | None => forall x, x \in e -> -1 <= x < 1 end
  | Err err => err = AssertionError /\ exists2 e, ew = Some e & size e <> n
  end.
Proof.
move=> fz; rewrite /haar fz.
have H (e : seq F) g1 : size e = n -> let: (U, g2) := ortho_rvs n g1 in
    with_spectrum (U *m diag_mx (\row_i [seq e`_j | j <- iota 0 n]`_i) *m U^T) e.
  move=> se; have := orthoP n g1; case: (ortho_rvs n g1) => U g2 /= o.
  have -> : \row_(i < n) [seq e`_j | j <- iota 0 n]`_i = \row_i e`_i.
    by apply/rowP => i; rewrite !mxE (nth_map 0%N) ?size_iota // nth_iota // add0n.
  exact: conj_spectrum.
case: ew => [e|].
  case: (size e =P n) => [se|ne] /=; last by split=> //; exists e.
  by have := H e g se; case: (ortho_rvs n g) => U g2 W; exists e.
rewrite /unif_range draws_F_unif size_map size_map (size_draws unif) eqxx /=.
set e := [seq -1 + (1 - -1) * x0 | x0 <- _]; have se : size e = n by rewrite !size_map (size_draws unif).
have := H e (draws unif n g).2 se; case: (ortho_rvs n _) => U g2 W; exists e; split=> // x.
rewrite /e -map_comp => /mapP[u /(draws_unif unifP) /andP[u0 u1] ->] /=.
have r0 : 0 <= ratr u :> F by rewrite ler0q.
have r1 : ratr u < 1 :> F by rewrite -(rmorph1 (ratr_rmorphism F)) ltr_rat.
exact: (@range_bound false).
Qed.

(* sizes scipy's ortho_group rejects are reported before the eigenvalues are looked at *)
Theorem C73_frozen n ew g err : ortho_frozen n = Some err -> haar n ew g = Err err.
Proof. by move=> h; rewrite /haar h. Qed.
End P.

(* the identity as orthogonal factor, eigenvalues 1 and 3 *)
Section E.
Variable F : rcfType.
Definition s_unif (g : nat) : rat * nat := (1 / 4%:R, g.+1).
Definition s_gauss (g : nat) : F * nat := (g.+1%:R, g.+1).
Definition s_qr n (A : 'M[F]_n) : 'M[F]_n := 1%:M.
Definition s_rvs n (g : nat) : 'M[F]_n * nat := (1%:M, g.+1).
Lemma s_qrP n (A : 'M[F]_n) : (s_qr A)^T *m s_qr A = 1%:M. Proof. by rewrite trmx1 mul1mx. Qed.
Lemma s_unifP g : 0 <= (s_unif g).1 < 1. Proof. by []. Qed.
Lemma s_rvsP n g : (s_rvs n g).1^T *m (s_rvs n g).1 = 1%:M. Proof. by rewrite trmx1 mul1mx. Qed.

Example C72_ex : exists A g', symmetric s_unif s_gauss s_qr 2 DNormal true (Some [:: 1; -3%:R]) 0%N = Ok (A, g') /\ ~ psd A.
Proof.
apply: (C72_pd_refuted s_unif s_gauss s_qrP 0%N (x0 := -3%:R)) => //; first by rewrite !inE eqxx orbT.
by rewrite oppr_lt0 ltr0n.
Qed.

(* three normal draws fill the upper triangle of a 3 x 3 matrix *)
Example C72_layout_ex : exists A g' (S : 'M[F]_3), symmetric s_unif s_gauss s_qr 3 DNormal false (Some [:: 1; 2%:R; 3%:R]) 0%N = Ok (A, g') /\
  S^T = S /\ upper S = [:: 1; 2%:R; 3%:R].
Proof.
have [//|//|//|A [g' [E _]]] := @C72_spectrum F nat s_unif s_gauss s_qr s_qrP 3 DNormal false [:: 1; 2%:R; 3%:R] 0%N.
by exists A, g'; have [S [e /= [sS uS _ _ _]]] := C72_layout E; exists S; do 2?split.
Qed.

Example C73_ex : exists A g', haar s_unif (fun=> None) s_rvs 2 (Some [:: 1; 3%:R : F]) 0%N = Ok (A, g') /\ with_spectrum A [:: 1; 3%:R].
Proof.
have H := @C73_haar F nat s_unif (fun=> None) s_rvs s_unifP s_rvsP 2 (Some [:: 1; 3%:R]) 0%N erefl.
by move: H => [e [W ee]]; rewrite ee in W; do 2!eexists; split; [reflexivity|exact: W].
Qed.
End E.

Print Assumptions C72_layout.
Print Assumptions C72_symmetric.
Print Assumptions C72_spectrum.
Print Assumptions C72_drawn.
Print Assumptions C72_pd_refuted.
Print Assumptions C72_errors.
Print Assumptions C73_haar.
Print Assumptions C73_frozen.
