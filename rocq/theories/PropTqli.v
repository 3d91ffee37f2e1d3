(* Properties C63, C64, C65 (tqli.py and tridiag.py). *)
From Coq Require Import String.
From mathcomp Require Import all_ssreflect all_algebra zify ring.
From Verif Require Import Base ModelTqli SpecLanczos SpecTridiag LemLanczos4 LemTqli.
Set Implicit Arguments.
Unset Strict Implicit.
Unset Printing Implicit Defensive.
Import Order.TTheory GRing.Theory Num.Theory.
Local Open Scope string_scope.
Local Open Scope ring_scope.

Section Bridge.
Variable F : rcfType.
Implicit Types d e u v : seq F.

(* the tridiagonal matrix with diagonal d and e_k in positions (k, k+1), (k+1, k) *)
Definition tmx n d e : 'M[F]_n := jacobi n (nth 0 d) (fun k => e`_k.-1).

Lemma bil_mx n d e u v : size u = n -> size v = n ->
  \sum_(i < n) \sum_(j < n) u`_i * tmx n d e i j * v`_j = bilL n d e u v.
Proof.
move=> su sv; rewrite /bilL /bil.
have -> : \sum_(i < n) \sum_(j < n) u`_i * tmx n d e i j * v`_j =
  \sum_(i < n) \sum_(j < n) ((i == j :> nat)%:R * (d`_j * (u`_j * v`_j)))
  + (\sum_(i < n) \sum_(j < n) ((i.+1 == j)%:R * (e`_i * (u`_i * v`_i.+1)))
  + \sum_(i < n) \sum_(j < n) ((i == j.+1 :> nat)%:R * (e`_j * (u`_j.+1 * v`_j)))).
  rewrite -!big_split /=; apply: eq_bigr => i _; rewrite -!big_split /=; apply: eq_bigr => j _.
  rewrite /tmx jacobiE.
  have [->|_] := (i =P j :> nat).
    have -> : (j.+1 == j :> nat) = false by lia.
    have -> : (j == j.+1 :> nat) = false by lia.
    by rewrite !mul0r mul1r mul1r !addr0; move: (d`_j) (u`_j) (v`_j) => *; ring.
  have [<-|_] := (i.+1 =P j :> nat).
    have -> : (i == i.+2 :> nat) = false by lia.
    by rewrite !mul0r !mul1r /= !addr0 !add0r; move: (u`_i) (v`_i.+1) (e`_i) => *; ring.
  have [->|_] := (i =P j.+1 :> nat).
    by rewrite !mul0r !mul1r /= !add0r; move: (u`_j.+1) (v`_j) (e`_j) => *; ring.
  by rewrite !mul0r !addr0 mulr0 mul0r.
have sumd (f : nat -> F) : forall j : 'I_n, \sum_(i < n) (i == j :> nat)%:R * f j = f j.
  move=> j; rewrite (bigD1 j) //= eqxx mul1r big1 ?addr0 // => i ij.
  by rewrite -[(i == j :> nat)]/(i == j) (negPf ij) mul0r.
congr (_ + _); first by rewrite exchange_big; apply: eq_bigr => j _; rewrite (sumd (fun j => d`_j * (u`_j * v`_j))).
have E (f : nat -> F) (g : nat -> F) : g n = 0 -> \sum_(i < n) \sum_(j < n) (i.+1 == j :> nat)%:R * (f i * g i.+1) = \sum_(i < n) f i * g i.+1.
  move=> gn; apply: eq_bigr => i _; case: (ltnP i.+1 n) => h; last first.
    have -> : i.+1 = n :> nat by have := ltn_ord i; lia.
    by rewrite gn mulr0 big1 // => j _; rewrite mulr0.
  rewrite (bigD1 (Ordinal h)) //= eqxx mul1r big1 ?addr0 // => j; rewrite -val_eqE /= eq_sym => /negPf->; exact: mul0r.
transitivity (\sum_(i < n) (e`_i * u`_i) * v`_i.+1 + \sum_(i < n) (e`_i * v`_i) * u`_i.+1).
  congr (_ + _).
    rewrite -(E (fun i => e`_i * u`_i) (nth 0 v)) ?nth_default ?sv //.
    by apply: eq_bigr => i _; apply: eq_bigr => j _; rewrite !mulrA.
  rewrite exchange_big -(E (fun i => e`_i * v`_i) (nth 0 u)) ?nth_default ?su //.
  apply: eq_bigr => i _; apply: eq_bigr => j _; rewrite eq_sym; congr (_ * _).
  by move: (u`_i.+1) (v`_i) (e`_i) => *; ring.
by rewrite -big_split; apply: eq_bigr => i _ /=; rewrite /sym; move: (u`_i) (v`_i) (u`_i.+1) (v`_i.+1) (e`_i) => *; ring.
Qed.

Lemma rows_tmx m n d e (Z : seq (seq F)) i j : size Z = m -> all (fun u => size u == n) Z ->
  (rows_mx m n Z *m tmx n d e *m (rows_mx m n Z)^T) i j = bilL n d e (nth [::] Z i) (nth [::] Z j).
Proof.
move=> sZ /allP hZ; have sz k : (k < m)%N -> size (nth [::] Z k) = n by move=> h; apply/eqP/hZ/mem_nth; rewrite sZ.
rewrite -bil_mx ?sz // mxE exchange_big /=; apply: eq_bigr => k _; rewrite !mxE big_distrl /=.
by apply: eq_bigr => l _; rewrite !mxE.
Qed.

Lemma rows_dot m n (Z : seq (seq F)) i j :
  (rows_mx m n Z *m (rows_mx m n Z)^T) i j = dot n (nth [::] Z i) (nth [::] Z j).
Proof. by rewrite mxE; apply: eq_bigr => k _; rewrite !mxE. Qed.

Lemma nth_map_rho (rho : seq F -> seq F) Z m i : size Z = m -> (i < m)%N -> nth [::] (map rho Z) i = rho (nth [::] Z i).
Proof. by move=> <- h; rewrite (nth_map [::]). Qed.

Lemma all_rho n (rho : seq F -> seq F) (Z : seq (seq F)) : (forall u, size u = n -> size (rho u) = n) ->
  all (fun u => size u == n) Z -> all (fun u => size u == n) (map rho Z).
Proof. by move=> h /allP hZ; apply/allP => _ /mapP[u /hZ /eqP su ->]; rewrite h. Qed.

Lemma simi_rows m n d e d' e' rho Z : simi n d e d' e' rho -> size Z = m -> all (fun u => size u == n) Z ->
  let R := rows_mx m n Z in let R' := rows_mx m n (map rho Z) in
  R' *m R'^T = R *m R^T /\ R' *m tmx n d' e' *m R'^T = R *m tmx n d e *m R^T.
Proof.
move=> [h1 h2 h3] sZ hZ R R'; have sz k : (k < m)%N -> size (nth [::] Z k) = n.
  by move=> h; apply/eqP/(allP hZ)/mem_nth; rewrite sZ.
split; apply/matrixP => i j.
  by rewrite !rows_dot !(nth_map_rho _ sZ) // h2 ?sz.
by rewrite !rows_tmx ?size_map ?all_rho // !(nth_map_rho _ sZ) // h3 ?sz.
Qed.

Lemma size_eye n : size (eye F n) = n. Proof. by rewrite size_mkseq. Qed.
Lemma all_eye n : all (fun u => size u == n) (eye F n).
Proof. by apply/allP => u /mapP[i _ ->]; rewrite size_mkseq. Qed.
Lemma rows_eye n : rows_mx n n (eye F n) = 1%:M.
Proof. by apply/matrixP => i j; rewrite !mxE nth_mkseq // nth_mkseq. Qed.

Lemma tmx_diag n d e : (forall k, e`_k = 0) -> tmx n d e = diag_mx (\row_j d`_j).
Proof.
move=> e0; apply/matrixP => i j; rewrite jacobiE !e0 !mulr0 !addr0 !mxE.
by rewrite -[(i == j :> nat)]/(i == j) eq_sym; case: eqP => [->|]; rewrite ?mul1r ?mul0r.
Qed.

Lemma tmx_input n d e : size e = n -> tmx n d (rcons (behead e) 0) = jacobi n (nth 0 d) (nth 0 e).
Proof.
move=> se; apply/matrixP => i j; rewrite !mxE.
have E k : (0 < k < n)%N -> (rcons (behead e) 0)`_k.-1 = e`_k.
  case: e se => [|a e] /= se; case: k => // k h; first by lia.
  by rewrite /= nth_rcons; have -> : (k < size e)%N by lia.
do !case: ifP => //; move=> h1 h2; rewrite E // ; have := ltn_ord i; have := ltn_ord j; lia.
Qed.
End Bridge.

Section Main.
Variable F : rcfType.
Implicit Types d e : seq F.

(* ---- C63 ---------------------------------------------------------------------- *)
(* the iteration always ends: tq_fuel is enough fuel, and more changes nothing *)
Lemma ql_all_fuel n mi k it (x : tqst F) f : (tq_fuel mi <= f)%N ->
  ql_all f n mi k it x = ql_all (tq_fuel mi) n mi k it x /\ ql_all f n mi k it x <> TFuel F.
Proof.
move=> hf; elim: k it x => [//|k IH] it x /=.
have h : ql (tq_fuel mi) n it mi 0 x <> TFuel F by apply: ql_fuel; rewrite /tq_fuel; lia.
rewrite (ql_more h hf); case: (ql _ _ _ _ _ _) h => // y _; exact: IH.
Qed.

Theorem C63_terminates d e Z mi f : (tq_fuel mi <= f)%N ->
  tqli f d e Z mi = tqli (tq_fuel mi) d e Z mi /\ tqli f d e Z mi <> Ok (TFuel F).
Proof.
move=> hf; rewrite /tqli; do 3!(case: ifP => _ //).
by have [-> h] := ql_all_fuel (size d) (size d) 0 (TqSt d (rcons (behead e) 0) Z false false) hf; split=> // -[].
Qed.

(* one sweep on the unreduced block it..m, whatever the shift (that is, whatever
   the starting value g of the chase) *)
Theorem C63_sweep n it m (g r : F) d e Z w' d' e' Z' :
  (it < m < n)%N -> size d = n -> size e = n ->
  ((0 < it)%N -> e`_it.-1 = 0) -> (forall i, (it <= i < m)%N -> e`_i != 0) -> e`_m = 0 ->
  size Z = n -> all (fun u => size u == n) Z ->
  rotations it m (m - it) (Sweep 1 1 0 g r) d e Z = (w', d', e', Z') ->
  let d'' := set_nth 0 d' it (d'`_it - w_p w') in
  let e'' := set_nth 0 (set_nth 0 e' it (w_g w')) m 0 in
  let R := rows_mx n n Z in let R' := rows_mx n n Z' in
  [/\ R' *m tmx n d'' e'' *m R'^T = R *m tmx n d e *m R^T, R' *m R'^T = R *m R^T &
      \sum_(i < n) d''`_i = \sum_(i < n) d`_i].
Proof.
move=> hm sd se ei en em sZ hZ E d'' e'' R R'.
have [s1 s2 _ [rho [h1 h2 h3 h4]]] := sweep_inv hm sd se em ei en E.
have S : simi n d e d'' e'' rho by [].
have [g1 g2] := simi_rows S sZ hZ; rewrite /R /R' h1; split=> //.
have [i1 i2] := simi_rows S (@size_eye F n) (all_eye F n).
move: i1 i2; rewrite rows_eye trmx1 !mul1mx mulmx1; set P := rows_mx _ _ _ => PP PT.
have tr dd ee : \sum_(i < n) dd`_i = \tr (tmx n dd ee) :> F.
  by apply: eq_bigr => i _; rewrite mxE eqxx.
by rewrite (tr d'' e'') (tr d e) -PT mxtrace_mulC mulmxA (mulmx1C PP) mul1mx.
Qed.

Lemma run_gen d e Z mi x n : size d = n ->
  tqli (tq_fuel mi) d e Z mi = Ok (TOk x) -> ~~ x_aband x -> ~~ x_capped x ->
  [/\ size e = n, size (x_d x) = n & exists rho, x_Z x = map rho Z /\
    let P := rows_mx n n (map rho (eye F n)) in
    [/\ forall u, size u = n -> size (rho u) = n, P^T *m P = 1%:M & jacobi n (nth 0 d) (nth 0 e) = P *m diag_mx (\row_j (x_d x)`_j) *m P^T]].
Proof.
move=> sd; rewrite /tqli; case: eqP => //= se; case: eqP => //= /eqP e0; case: ifP => //= _ [] E ab cp.
have se' : size (rcons (behead e) 0) = n by rewrite size_rcons size_behead -se sd prednK // -sd se lt0n.
rewrite sd in E.
have en : (rcons (behead e) 0)`_n.-1 = 0 by rewrite nth_rcons size_behead -se sd ltnn eqxx.
have [//|h1 h2 h3 [rho [/= h4 S]]] := @ql_all_inv F _ n mi n 0 (TqSt d (rcons (behead e) 0) Z false false) x (add0n n) sd se' en _ E ab cp.
have [i1 i2] := simi_rows S (@size_eye F n) (all_eye F n).
split=> //; first by rewrite -se.
exists rho; split=> //; move: i1 i2; set P := rows_mx _ _ (map _ _).
rewrite rows_eye trmx1 !mul1mx mulmx1 tmx_input -?se // (tmx_diag n _ h3) => ZZ ZT.
by split=> //; [case: S|exact: mulmx1C].
Qed.

Lemma char_poly_diag n (v : 'rV[F]_n) : char_poly (diag_mx v) = \prod_(i < n) ('X - (v 0 i)%:P).
Proof.
rewrite /char_poly /char_poly_mx.
have -> : 'X%:M - map_mx polyC (diag_mx v) = diag_mx (\row_j ('X - (v 0 j)%:P)).
  apply/matrixP => i j; rewrite !mxE; case: eqP => [->|_]; rewrite ?mulr1n // !mulr0n polyC0 subr0 //.
by rewrite det_diag; apply: eq_bigr => i _; rewrite mxE.
Qed.

Lemma char_poly_simi n (Z D : 'M[F]_n) : Z^T *m Z = 1%:M -> char_poly (Z *m D *m Z^T) = char_poly D.
Proof.
move=> ZZ'; have ZZ := mulmx1C ZZ'; rewrite /char_poly /char_poly_mx.
have -> : 'X%:M - map_mx polyC (Z *m D *m Z^T) = map_mx polyC Z *m ('X%:M - map_mx polyC D) *m map_mx polyC Z^T.
  rewrite mulmxBr mulmxBl -!map_mxM; congr (_ - _).
  by rewrite mul_mx_scalar -scalemxAl -map_mxM ZZ map_scalar_mx scalemx1.
by rewrite !det_mulmx mulrC mulrA -det_mulmx -map_mxM ZZ' map_scalar_mx det_scalar expr1n mul1r.
Qed.

(* a run in which no sweep was given up and no eigenvalue hit the iteration
   limit delivers the eigendecomposition of the input matrix *)
Theorem C63_run d e mi x n : size d = n ->
  tqli (tq_fuel mi) d e (eye F n) mi = Ok (TOk x) -> ~~ x_aband x -> ~~ x_capped x ->
  is_eigh (jacobi n (nth 0 d) (nth 0 e)) (x_d x) (x_Z x) /\ is_eigvals (jacobi n (nth 0 d) (nth 0 e)) (x_d x).
Proof.
move=> sd E ab cp; have [se sx [rho [EZ]]] := run_gen sd E ab cp.
case=> hrho; rewrite -EZ => ZZ TE; split.
  split=> //; [by rewrite EZ size_map size_eye|by rewrite EZ all_rho ?all_eye|by rewrite TE -mulmxA ZZ mulmx1].
by split=> //; rewrite TE char_poly_simi // char_poly_diag; apply: eq_bigr => i _; rewrite mxE.
Qed.

(* the same for the eigenvalues alone (empty Z) *)
Theorem C63_run_values d e mi x n : size d = n ->
  tqli (tq_fuel mi) d e [::] mi = Ok (TOk x) -> ~~ x_aband x -> ~~ x_capped x ->
  is_eigvals (jacobi n (nth 0 d) (nth 0 e)) (x_d x).
Proof.
move=> sd E ab cp; have [se sx [rho [_ [_ ZZ TE]]]] := run_gen sd E ab cp; split=> //.
by rewrite TE char_poly_simi // char_poly_diag; apply: eq_bigr => i _; rewrite mxE.
Qed.

(* ---- 2 x 2 matrices ------------------------------------------------------------- *)
Lemma ql2_step f mi ii (a b x y : F) Z ab cp : x != 0 -> (ii%:Z <= mi)%R ->
  let dl := b - a in let sg := (1 < dl)%R%:R + 1 in dl + sg != 0 ->
  let g := dl + x / (dl + sg) in let r := hypot x g in let s := x / r in let c := g / r in
  let r' := (a - b) * s + 2%:R * c * x in let p := s * r' in
  ql f.+1 2 0 mi ii (TqSt [:: a; b] [:: x; y] Z ab cp) =
  if r' == 0 then ql f 2 0 mi ii.+1 (TqSt [:: a; b + p] [:: x; r] (map (rot_row 0 s c) Z) true cp)
  else ql f 2 0 mi ii.+1 (TqSt [:: a - p; b + p] [:: c * r' - x; 0] (map (rot_row 0 s c) Z) ab cp).
Proof.
move=> x0 hi dl sg dl0 g r s c r' p.
have sgE z w : 0 <= z -> tq_sign z w = (1 < w)%R%:R + 1 by rewrite /tq_sign leNgt => /negPf->; rewrite subr0.
rewrite [LHS]/= add_eq0 (negPf x0) /= sgE ?hypot_ge0 // -/dl -/sg orbF ltNge hi /= (negPf dl0).
rewrite !mul1r !subr0 -/g -/r (negPf (hypot_neq0 _ x0)) /= -/s -/c -/r' -/p.
by [].
Qed.

Lemma ql2_inf f mi ii (a b x y : F) Z ab cp : x != 0 -> (ii%:Z <= mi)%R -> b - a + ((1 < b - a)%R%:R + 1) = 0 ->
  ql f.+1 2 0 mi ii (TqSt [:: a; b] [:: x; y] Z ab cp) = TInf F.
Proof.
move=> x0 hi dl0; have sgE z w : 0 <= z -> tq_sign z w = (1 < w)%R%:R + 1 by rewrite /tq_sign leNgt => /negPf->; rewrite subr0.
by rewrite [LHS]/= add_eq0 (negPf x0) /= sgE ?hypot_ge0 // orbF ltNge hi /= dl0 eqxx.
Qed.

Lemma ql2_done f mi ii (a b y : F) Z ab cp :
  ql f.+1 2 0 mi ii (TqSt [:: a; b] [:: 0; y] Z ab cp) = TOk (TqSt [:: a; b] [:: 0; y] Z ab cp).
Proof. by rewrite /= add_eq0 eqxx. Qed.
Lemma ql2_last f mi ii (d e : seq F) Z ab cp :
  ql f.+1 2 1 mi ii (TqSt d e Z ab cp) = TOk (TqSt d e Z ab cp).
Proof. by []. Qed.

(* d = [0, 1], e = [2/3] converges in one sweep, to -1/3 and 4/3 *)
Example C63_ex mi : (0 <= mi)%R -> exists x, tqli (tq_fuel mi) [:: 0; 1] [:: 0; 2%:R / 3%:R] (eye F 2) mi = Ok (TOk x) /\
  [/\ ~~ x_aband x, ~~ x_capped x & x_d x = [:: - (1 / 3%:R); 4%:R / 3%:R]].
Proof.
move=> mi0; rewrite /tqli /isclose0 [_ == _]/= [X in if X then _ else _]/= normr0 mul0r ler01.
have -> : tq_fuel mi = (`|Num.max mi 0| + 1).+2 by rewrite /tq_fuel; lia.
have n3 : 3%:R != 0 :> F by rewrite pnatr_eq0.
have n2 : 2%:R != 0 :> F by rewrite pnatr_eq0.
have x0 : 2%:R / 3%:R != 0 :> F by rewrite mulf_neq0 ?invr_neq0.
rewrite [rcons _ _]/= [size _]/= /ql_all -/(@ql_all F).
rewrite (@ql2_step _ _ _ 0 1 (2%:R / 3%:R)) //; last first.
  by rewrite subr0 ltxx add0r.
have sE : 1 - 0 + (((1 : F) < 1 - 0)%R%:R + 1) = 2%:R :> F by rewrite subr0 ltxx add0r.
rewrite sE (subr0 (1 : F)).
set g := 1 + _; have gE : g = 2%:R * (2%:R / 3%:R) by rewrite /g; field; rewrite ?n2 ?n3 ?pnatr_eq0.
set r := hypot _ _.
have r0 : r != 0 by exact: hypot_neq0.
have r2 : r ^+ 2 = 5%:R * (2%:R / 3%:R) ^+ 2 by rewrite /r hypot_sq gE; ring.
set r' := (0 - 1) * _ + _.
have r'E : r' = 5%:R / 3%:R * (2%:R / 3%:R) / r.
  by rewrite /r' gE; field; rewrite ?r0 ?n2 ?n3 ?pnatr_eq0.
have r'0 : r' != 0 by rewrite r'E !mulf_neq0 ?invr_neq0 // pnatr_eq0.
rewrite (negPf r'0).
have pE : 2%:R / 3%:R / r * r' = 1 / 3%:R.
  have -> : 2%:R / 3%:R / r * r' = (5%:R * (2%:R / 3%:R) ^+ 2) / 3%:R / r ^+ 2 by rewrite r'E; field; rewrite ?r0 ?n2 ?n3 ?pnatr_eq0.
  by rewrite r2; field; rewrite ?r0 ?n2 ?n3 ?pnatr_eq0.
have eE : g / r * r' - 2%:R / 3%:R = 0.
  have -> : g / r * r' = 2%:R * (2%:R / 3%:R / r * r') by rewrite gE; field; rewrite ?r0 ?n2 ?n3 ?pnatr_eq0.
  by rewrite pE; field.
rewrite eE pE ql2_done ql2_last; eexists; split; first by [].
by split=> //=; congr [:: _; _]; field.
Qed.

(* ---- C64 ---------------------------------------------------------------------- *)
Lemma half_neq0 : 1 / 2%:R != 0 :> F. Proof. by rewrite mulf_neq0 ?oner_neq0 ?invr_neq0 ?pnatr_eq0. Qed.

(* [[1/2, 1/8], [1/8, 0]]: every sweep ends with r = 0 and is given up *)
Lemma stall f mi ii y (Z : seq (seq F)) ab cp : ql f 2 0 mi ii (TqSt [:: 1 / 2%:R; 0] [:: 1 / 8%:R; y] Z ab cp) = TFuel F \/
  exists y' Z' ab', ql f 2 0 mi ii (TqSt [:: 1 / 2%:R; 0] [:: 1 / 8%:R; y] Z ab cp) =
    TOk (TqSt [:: 1 / 2%:R; 0] [:: 1 / 8%:R; y'] Z' ab' true) /\ size Z' = size Z.
Proof.
have e0 : 1 / 8%:R != 0 :> F by rewrite mulf_neq0 ?oner_neq0 ?invr_neq0 ?pnatr_eq0.
elim: f ii y Z ab => [|f IH] ii y Z ab; first by left.
case: (lerP ii%:Z mi) => hi; last first.
  by right; exists y, Z, ab; rewrite /= add_eq0 (negPf e0) /= hi.
have lt0 : (1 < 0 - 1 / 2%:R :> F)%R = false.
  by apply/negbTE; rewrite -leNgt ler_subl_addl ler_paddr ?ler01 // divr_ge0 ?ler0n ?ler01.
have hd : 0 - 1 / 2%:R + ((1 < 0 - 1 / 2%:R :> F)%R%:R + 1) = 1 / 2%:R :> F by rewrite lt0 /=; field.
rewrite ql2_step ?hd ?half_neq0 //.
set g := 0 - _ + _; have gE : g = - (1 / 4%:R) by rewrite /g; field.
set r := hypot _ _; have r0 : r != 0 by apply: hypot_neq0.
have r'E : (1 / 2%:R - 0) * (1 / 8%:R / r) + 2%:R * (g / r) * (1 / 8%:R) = 0 by rewrite gE; field.
rewrite r'E eqxx mulr0 addr0.
case: (IH ii.+1 r (map (rot_row 0 (1 / 8%:R / r) (g / r)) Z) true) => [->|[y' [Z' [ab' [-> sz]]]]]; first by left.
by right; exists y', Z', ab'; rewrite sz size_map.
Qed.

Lemma stall_tqli mi (Z : seq (seq F)) : exists x,
  tqli (tq_fuel mi) [:: 1 / 2%:R; 0] [:: 0; 1 / 8%:R] Z mi = Ok (TOk x) /\ x_d x = [:: 1 / 2%:R; 0].
Proof.
have [_ h] := @C63_terminates [:: 1 / 2%:R; 0] [:: 0; 1 / 8%:R] Z mi (tq_fuel mi) (leqnn _).
move: h; rewrite /tqli /isclose0 [_ == _]/= [X in if X then _ else _]/= normr0 mul0r ler01 /=.
case: (stall (tq_fuel mi) mi 0 0 Z false false) => [-> //|[y [Z' [ab [-> _]]]]] h.
have -> : tq_fuel mi = (`|Num.max mi 0| + 2).+1 by rewrite /tq_fuel; lia.
by rewrite ql2_last; eexists; split.
Qed.

Theorem C64_stall_refuted lv lp (mi : int) :
  eigvalsh_tridiag lv lp [:: 1 / 2%:R; 0] [:: 1 / 8%:R] "tqli" mi = Ok (EVals [:: 1 / 2%:R; 0 : F]) /\
  ~ eigenvalue (jacobi 2 (nth 0 [:: 1 / 2%:R; 0 : F]) (nth 0 [:: 0; 1 / 8%:R])) (1 / 2%:R).
Proof.
split.
  rewrite /eigvalsh_tridiag /tridiag_front /= /eigh_internal /= /eigh_tqli.
  by have [x [-> /= ->]] := stall_tqli mi [::].
have e0 : 1 / 8%:R != 0 :> F by rewrite mulf_neq0 ?oner_neq0 ?invr_neq0 ?pnatr_eq0.
case/eigenvalueP => v /rowP E v0; case/negP: v0; apply/eqP/rowP => j.
have := E 0; have := E 1; rewrite !mxE !big_ord_recl !big_ord0 !mxE /= !addr0.
rewrite (_ : lift ord0 ord0 = 1); last exact: val_inj.
move=> h1 h2; have y0 : v 0 1 = 0.
  apply/eqP; rewrite -(mulIr_eq0 _ (mulIf e0)); apply/eqP.
  by apply: (addrI (v 0 0 * (1 / 2%:R))); rewrite addr0 h2 mulrC.
have x0 : v 0 0 = 0.
  apply/eqP; rewrite -(mulIr_eq0 _ (mulIf e0)); apply/eqP.
  by move: h1; rewrite y0 !mulr0 addr0.
by rewrite ?mxE; case: j => -[|[|//]] hj; [rewrite -x0|rewrite -y0]; congr (v 0 _); exact: val_inj.
Qed.

(* d_1 - d_0 = -1: the denominator of the shift is 0 *)
Theorem C64_nonfinite_refuted lv lp (mi : int) (a x : F) : (0 <= mi)%R -> x != 0 ->
  eigvalsh_tridiag lv lp [:: a; a - 1] [:: x] "tqli" mi = Ok (ENonFinite F).
Proof.
move=> hi x0; rewrite /eigvalsh_tridiag /tridiag_front /= /eigh_internal /= /eigh_tqli.
rewrite /tqli /isclose0 [_ == _]/= [X in if X then _ else _]/= normr0 mul0r ler01.
have -> : tq_fuel mi = (`|Num.max mi 0| + 2).+1 by rewrite /tq_fuel; lia.
rewrite [rcons _ _]/= [size _]/= /ql_all -/(@ql_all F) ql2_inf //.
have -> : a - 1 - a = -1 by rewrite addrAC subrr sub0r.
have -> : (1 < -1 :> F)%R = false by apply/negbTE; rewrite -leNgt (le_trans (lerN10 F)) ?ler01.
by rewrite add0r addNr.
Qed.

(* what does hold: a diagonal matrix is returned as it is (see also C63_run) *)
Theorem C64_diagonal lv lp (d : seq F) (mi : int) : d != [::] ->
  eigh_tridiag lv lp d (nseq (size d) 0) "tqli" mi = Ok (EPairs d (eye F (size d))).
Proof.
move=> d0.
rewrite /eigh_tridiag /tridiag_front /= size_nseq eqxx orbT /=.
have -> : ((size d).+1 == size d) = false by lia.
rewrite /eigh_internal /= /eigh_tqli /tqli size_nseq eqxx /=.
have sd : (0 < size d)%N by rewrite lt0n size_eq0.
have -> : (size d == 0%N) = false by lia.
have -> : (nseq (size d) 0 : seq F)`_0 = 0 by rewrite nth_nseq sd.
rewrite /isclose0 normr0 mul0r ler01 /=.
have -> : rcons (behead (nseq (size d) (0 : F))) 0 = nseq (size d) 0.
  by case: (size d) sd => // k _ /=; elim: k => //= k ->.
have H k it f Z : (it + k = size d)%N -> ql_all f.+1 (size d) mi k it (TqSt d (nseq (size d) 0) Z false false) = TOk (TqSt d (nseq (size d) 0) Z false false).
  elim: k it => [//|k IH] it h /=.
  have -> : ModelTqli.split d (nseq (size d) 0) ((size d).-1 - it) it = it.
    by case: (_ - _)%N => [//|q] /=; rewrite nth_nseq if_same add_eq0 eqxx.
  by rewrite eqxx /= IH // addSnnS.
have -> : tq_fuel mi = (`|Num.max mi 0| + 2).+1 by rewrite /tq_fuel; lia.
rewrite H //=.
by case: d d0 {sd H}.
Qed.

(* ---- C65 ---------------------------------------------------------------------- *)
Section Front.
Variable lv : seq F -> seq F -> res (seq F).
Variable lp : seq F -> seq F -> res (seq F * seq (seq F)).
Local Notation front := (tridiag_front lv lp).

Theorem C65_rejects d e vec m mi :
  ~ (m = "tqli" \/ m = "mrrr" \/ m = "auto") \/ ~ (size d = size e \/ size d = (size e).+1) ->
  front d e vec m mi = Err AssertionError.
Proof.
rewrite /tridiag_front; case: ifP => // /negbFE hm [h|h].
  by case: h; move: hm => /or3P[] /String.eqb_eq ->; auto.
case: ifP => // /negbFE /orP[/eqP|/eqP] e1; by case: h; auto.
Qed.

(* an off-diagonal of length n-1 means the same as one of length n with a
   leading zero *)
Theorem C65_both_lengths d e vec m mi : size d = (size e).+1 -> front d e vec m mi = front d (0 :: e) vec m mi.
Proof.
move=> sd; rewrite /tridiag_front [size (0 :: e)]/= sd !eqxx orbT /=.
by have -> : ((size e).+2 == (size e).+1) = false by lia.
Qed.

(* 'auto': LAPACK when it succeeds, tqli with 30 sweeps when it raises
   LinAlgError; other exceptions propagate *)
Theorem C65_auto d e vec mi : size d = (size e).+1 ->
  front d e vec "auto" mi =
  match front d e vec "mrrr" mi with
  | Err LinAlgError => front d e vec "tqli" 30
  | r => r
  end.
Proof. by move=> sd; rewrite /tridiag_front sd !eqxx. Qed.

(* 'mrrr' is exactly the LAPACK routine on (d, e) *)
Theorem C65_mrrr d e mi : size d = (size e).+1 ->
  front d e true "mrrr" mi = bind (lp d e) (fun wy => Ok (EPairs wy.1 wy.2)) /\
  front d e false "mrrr" mi = bind (lv d e) (fun w => Ok (EVals w)).
Proof.
move=> sd; rewrite /tridiag_front sd !eqxx /eigh_internal /= /eigh_mrrr /=; split=> //.
Qed.

(* hence, with a correct LAPACK, the front end returns an eigendecomposition of
   the matrix with diagonal d and off-diagonal e, whichever length e has *)
Theorem C65_correct d e (m : string) mi w Y :
  (forall d e w Y, size d = (size e).+1 -> lp d e = Ok (w, Y) -> is_eigh (jacobi (size d) (nth 0 d) (nth 0 (0 :: e))) w Y) ->
  m = "auto" \/ m = "mrrr" -> size d = (size e).+1 ->
  lp d e = Ok (w, Y) ->
  [/\ eigh_tridiag lv lp d e m mi = Ok (EPairs w Y), eigh_tridiag lv lp d (0 :: e) m mi = Ok (EPairs w Y) &
      is_eigh (jacobi (size d) (nth 0 d) (nth 0 (0 :: e))) w Y].
Proof.
move=> spec hm sd E; have E1 : front d e true m mi = Ok (EPairs w Y).
  have [h1 _] := C65_mrrr mi sd; rewrite E /= in h1.
  by case: hm => ->; rewrite ?C65_auto // h1.
by split=> //; [rewrite /eigh_tridiag -C65_both_lengths|exact: spec].
Qed.

(* the user's maxiter should matter when tqli is used; 'auto' drops it *)
Theorem C65_maxiter_dropped_refuted d e vec m1 m2 : front d e vec "auto" m1 = front d e vec "auto" m2.
Proof. by rewrite /tridiag_front /=; case: ifP. Qed.

Example C65_maxiter_matters : front [:: 0; 1] [:: 2%:R / 3%:R] true "tqli" (-1) <> front [:: 0; 1] [:: 2%:R / 3%:R] true "tqli" 0.
Proof.
rewrite /tridiag_front /= /eigh_internal /= /eigh_tqli.
have [x [-> [_ _ xd]]] := C63_ex (lexx (0 : int)).
rewrite /tqli /isclose0 [_ == _]/= [X in if X then _ else _]/= normr0 mul0r ler01 /=.
have n0 : (2%:R / 3%:R == 0 :> F) = false by rewrite mulf_eq0 invr_eq0 !pnatr_eq0.
rewrite add_eq0 n0 /= xd => -[] /eqP.
by rewrite eq_sym oppr_eq0 mulf_eq0 oner_eq0 invr_eq0 pnatr_eq0.
Qed.
End Front.
End Main.

Print Assumptions C63_terminates.
Print Assumptions C63_sweep.
Print Assumptions C63_run.
Print Assumptions C63_run_values.
Print Assumptions C64_stall_refuted.
Print Assumptions C64_nonfinite_refuted.
Print Assumptions C64_diagonal.
Print Assumptions C65_rejects.
Print Assumptions C65_both_lengths.
Print Assumptions C65_auto.
Print Assumptions C65_mrrr.
Print Assumptions C65_correct.
Print Assumptions C65_maxiter_dropped_refuted.
