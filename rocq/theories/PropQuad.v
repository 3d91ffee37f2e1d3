(* Properties of quadrature() and of FTTR: C54, C57, C58. *)
From Coq Require Import String.
From mathcomp Require Import all_ssreflect all_algebra zify ring.
From Verif Require Import Base ModelTqli ModelQuadrature SpecLanczos SpecTridiag SpecQuad LemSpectral LemQuad.
Set Implicit Arguments.
Unset Strict Implicit.
Unset Printing Implicit Defensive.
Import Order.TTheory GRing.Theory Num.Theory.
Local Open Scope string_scope.
Local Open Scope ring_scope.

Section Main.
Variable F : rcfType.

(* ---- FTTR ----------------------------------------------------------------------- *)
Section Fttr.
Variables (x mu : F) (a b : seq F) (n : nat).
Hypothesis ub : forall i, (0 < i < n)%N -> b`_i != 0.
Hypothesis n2 : (2 <= n)%N.

Fixpoint zz (i : nat) : F * F :=
  if i is i'.+1 then
    (if i' is 0%N then (x - a`_0) * mu / b`_1 else (x - a`_i') / b`_i * (zz i').1 + - b`_i' / b`_i * (zz i').2, (zz i').1)
  else (mu, 0).
Definition zp i := (zz i).1.

Lemma zz2 i : (zz i.+1).2 = zp i. Proof. by []. Qed.
Lemma zpS i : zp i.+2 = (x - a`_i.+1) / b`_i.+2 * zp i.+1 + - b`_i.+1 / b`_i.+2 * zp i.
Proof. by []. Qed.
Lemma zp1 : zp 1 = (x - a`_0) * mu / b`_1. Proof. by []. Qed.

Lemma poly_loopE k i : (i + k = n - 2)%N ->
  poly_loop x a b k i.+2 (Fin (zp i.+1)) (Fin (zp i)) = [seq Fin (zp (j + i.+2)) | j <- iota 0 k].
Proof.
elim: k i => [//|k IH] i h /=; have b0 : b`_i.+2 != 0 by apply: ub; lia.
rewrite (negbTE b0) /= add0n -zpS; congr (_ :: _).
rewrite (IH i.+1); last by lia.
by rewrite -[1%N]addn0 iotaDl -map_comp; apply: eq_map => j /=; congr (Fin (zp _)); lia.
Qed.

Lemma ortho_polyE : ortho_poly x (Fin mu) a b n = Some (mkseq (fun i => Fin (zp i)) n).
Proof.
rewrite /ortho_poly ltnNge n2 /=; have b1 : b`_1 != 0 by apply: ub; lia.
rewrite (negbTE b1) -zp1 -[X in poly_loop _ _ _ _ _ _ X]/(Fin (zp 0)) (@poly_loopE (n - 2) 0) ?add0n // /mkseq.
have {2}-> : n = (2 + (n - 2))%N by lia.
rewrite iotaD map_cat /=; congr (Some (_ :: _ :: _)).
by rewrite addnC iotaDl -map_comp; apply: eq_map => j /=; rewrite addnC.
Qed.

(* every solution of the eigenvector equations is a multiple of z *)
Lemma zp_eig (v : 'cV[F]_n) (i0 : 'I_n) : i0 = 0%N :> nat -> jacobi n (nth 0 a) (nth 0 b) *m v = x *: v ->
  forall i : 'I_n, v i 0 * mu = v i0 0 * zp i.
Proof.
move=> i00 h.
pose f (l : nat) : F := if insub l is Some j then v j 0 else 0.
have fE (l : 'I_n) : f l = v l 0 by rewrite /f valK.
have f0 (l : nat) : (n <= l)%N -> f l = 0 by move=> hl; rewrite /f insubF // ltnNge hl.
(* row i of the equation *)
have R i : (i < n)%N -> a`_i * f i + (if (i.+1 < n)%N then b`_i.+1 * f i.+1 else 0) + (if i is i'.+1 then b`_i * f i' else 0) = x * f i.
  move=> hi; move/colP/(_ (Ordinal hi)): h; rewrite !mxE -fE /= => <-.
  rewrite (eq_bigr (fun l : 'I_n => (if l == i :> nat then a`_i * f i else 0) + (if l == i.+1 :> nat then b`_i.+1 * f i.+1 else 0)
     + (if l.+1 == i :> nat then b`_i * f l else 0))); last first.
    move=> l _; rewrite mxE -fE /= [i == l :> nat]eq_sym; case: (eqVneq (nat_of_ord l) i) => [->|ne].
      have -> : (i == i.+1) = false by apply/eqP; lia.
      have -> : (i.+1 == i) = false by apply/eqP; lia.
      by rewrite !addr0.
    rewrite add0r [i.+1 == _]eq_sym; case: eqP => [->|ne'].
      have -> : (i.+2 == i) = false by apply/eqP; lia.
      by rewrite addr0.
    by rewrite add0r; case: ifP => //; rewrite mul0r.
  have one (P : nat -> bool) (g : nat -> F) (m : nat) : (m < n)%N -> P m -> (forall l, P l -> l = m) ->
      \sum_(l < n) (if P l then g l else 0) = g m.
    move=> hm pm un; rewrite (bigD1 (Ordinal hm)) //= pm big1 ?addr0 // => l ne.
    by case: ifP => // /un e; case/eqP: ne; apply: val_inj.
  have zero (P : nat -> bool) (g : nat -> F) : (forall l, (l < n)%N -> P l = false) -> \sum_(l < n) (if P l then g l else 0) = 0.
    by move=> un; rewrite big1 // => l _; rewrite un.
  rewrite !big_split /= (@one (fun l => l == i) (fun=> a`_i * f i) i) //; last by move=> l /eqP.
  congr (_ + _ + _).
    case: ltnP => hi1.
      by rewrite (@one (fun l => l == i.+1) (fun=> b`_i.+1 * f i.+1) i.+1) // => l /eqP.
    by rewrite (@zero (fun l => l == i.+1) (fun=> b`_i.+1 * f i.+1)) // => l hl; lia.
  case: i hi => [|i] hi.
    by rewrite (@zero (fun l => l.+1 == 0)%N (fun l => b`_0 * f l)).
  by rewrite (@one (fun l => l.+1 == i.+1)%N (fun l => b`_i.+1 * f l) i) //; [lia|move=> l /eqP[]].
have H m : (m < n)%N -> f m * mu = f 0%N * zp m.
  elim/ltn_ind: m => m IH hm; case: m IH hm => [|[|m]] IH hm; first by [].
    have := R 0%N; rewrite (ltnW n2) => /(_ isT); rewrite n2 addr0 => e; have b1 : b`_1 != 0 by apply: ub; lia.
    have e1 : f 1%N = (x - a`_0) * f 0%N / b`_1.
      apply: (mulfI b1); rewrite mulrCA mulfV // mulr1.
      by have -> : (x - a`_0) * f 0%N = x * f 0%N - a`_0 * f 0%N by [ring]; rewrite -e; ring.
    by rewrite e1 zp1; ring.
  have := R m.+1 (ltnW hm); rewrite hm => e; have b2 : b`_m.+2 != 0 by apply: ub; lia.
  have e1 : f m.+2 = ((x - a`_m.+1) * f m.+1 - b`_m.+1 * f m) / b`_m.+2.
    apply: (mulfI b2); rewrite mulrCA mulfV // mulr1.
    by have -> : (x - a`_m.+1) * f m.+1 = x * f m.+1 - a`_m.+1 * f m.+1 by [ring]; rewrite -e; ring.
  rewrite e1 zpS; have i1 := IH m.+1 (ltnSn _) (ltnW hm); have i2 := IH m (leqnSn _) (ltnW (ltnW hm)).
  have -> : f 0%N * ((x - a`_m.+1) / b`_m.+2 * zp m.+1 + - b`_m.+1 / b`_m.+2 * zp m) =
     (x - a`_m.+1) / b`_m.+2 * (f 0%N * zp m.+1) + - b`_m.+1 / b`_m.+2 * (f 0%N * zp m) by ring.
  by rewrite -i1 -i2; ring.
move=> i; rewrite -!fE i00; exact: H.
Qed.

Lemma zp_weight (v : 'cV[F]_n) (i0 : 'I_n) : i0 = 0%N :> nat -> jacobi n (nth 0 a) (nth 0 b) *m v = x *: v ->
  \sum_i v i 0 ^+ 2 = 1 -> mu != 0 -> [/\ \sum_(i < n) zp i ^+ 2 != 0 & (\sum_(i < n) zp i ^+ 2)^-1 = v i0 0 ^+ 2 / mu ^+ 2].
Proof.
move=> i00 h v1 mu0; have H := zp_eig i00 h.
have E : mu ^+ 2 = v i0 0 ^+ 2 * \sum_(i < n) zp i ^+ 2.
  rewrite -[LHS]mul1r -v1 mulr_suml mulr_sumr; apply: eq_bigr => i _.
  by rewrite -!exprMn H.
have S0 : \sum_(i < n) zp i ^+ 2 != 0.
  by apply: contraNneq mu0 => s0; rewrite -sqrf_eq0 E s0 mulr0.
split=> //; rewrite E invfM mulrA; have [v0|v0] := eqVneq (v i0 0) 0.
  by move/eqP: E; rewrite v0 expr0n mul0r sqrf_eq0 (negbTE mu0).
by rewrite mulfV ?mul1r // sqrf_eq0.
Qed.
End Fttr.

Lemma xsum_fin (s : seq F) : xsum [seq xmul y y | y <- [seq Fin z | z <- s]] = Fin (\sum_(z <- s) z ^+ 2).
Proof. by elim: s => [|z s IH] /=; rewrite ?big_nil // big_cons IH /= expr2. Qed.

Lemma fttr_loopE theta a b (mu0 : F) (u : nat -> F) k i ws :
  (forall j, (i <= j < i + k)%N -> exists zs : seq F,
     [/\ ortho_poly theta`_j (xdiv (Fin 1) (xsqrt (Fin mu0))) a b (size a) = Some [seq Fin z | z <- zs],
         \sum_(z <- zs) z ^+ 2 != 0 & (\sum_(z <- zs) z ^+ 2)^-1 / mu0 = u j]) -> mu0 != 0 ->
  fttr_loop theta a b (Fin mu0) (xdiv (Fin 1) (xsqrt (Fin mu0))) k i ws =
  Some (foldl (fun w j => set_nth (Fin 0) w j (Fin (u j))) ws (iota i k)).
Proof.
move: (xdiv (Fin 1) (xsqrt _)) => M h m0; elim: k i ws h => [//|k IH] i ws h.
have [zs [h1 h2 h3]] := h i (ltac:(lia) : is_true (i <= i < i + k.+1)%N).
rewrite /= h1 /= xsum_fin (negbTE h2) /= (negbTE m0) div1r h3.
by rewrite IH // => j hj; apply: h; lia.
Qed.

Lemma foldl_set (u : nat -> F) k : forall n i (ws : seq (xnum F)), (i + k <= n)%N ->
  size ws = n ->
  foldl (fun w j => set_nth (Fin 0) w j (Fin (u j))) ws (iota i k) =
  mkseq (fun l => if (i <= l < i + k)%N then Fin (u l) else nth (Fin 0) ws l) n.
Proof.
elim: k => [|k IH] n i ws h sw /=.
  by rewrite -{1}(mkseq_nth (Fin 0) ws) sw; apply: eq_map => l; case: ifP => //; lia.
rewrite (IH n); [|lia|by rewrite size_set_nth sw; lia].
apply: eq_map => l; rewrite nth_set_nth /=; case: (eqVneq l i) => [->|ne].
  by rewrite ltnn /= leqnn /= (_ : (i < i + k.+1)%N) //; lia.
by rewrite (_ : (i <= l < i + k.+1)%N = (i < l < i.+1 + k)%N) //; move/eqP: ne; lia.
Qed.

Lemma slice_nat (T : Type) (k : nat) (s : seq T) : slice k%:Z s = take k s.
Proof. by rewrite /slice lez_nat. Qed.

(* FTTR computes the squared first components of the eigenvectors, whatever the
   normalisation constant sum |theta_i| > 0 *)
Theorem C57_fttr_weights (d e theta : seq F) (Y : seq (seq F)) (k : nat) :
  (2 <= size d)%N -> size e = size d -> (forall i, (0 < i < size d)%N -> e`_i != 0) ->
  is_eigh (jacobi (size d) (nth 0 d) (nth 0 e)) theta Y -> (k <= size d)%N ->
  \sum_(t <- take k theta) `|t| != 0 ->
  fttr theta d e k%:Z (nseq (size d) (Fin 0)) =
  Some (mkseq (fun i => if (i < k)%N then Fin ((nth [::] Y 0)`_i ^+ 2) else Fin 0) (size d)).
Proof.
move=> n2 se ub eig kn m0; rewrite /fttr slice_nat; set mu0 := \sum_(_ <- _) _.
have mp : 0 < mu0 by rewrite lt_neqAle eq_sym m0 /mu0 sumr_ge0.
have -> : (if 0 < k%:Z then `|k%:Z|%N else 0%N) = k by case: (k).
have [sw sY aY oY hY] := eig.
pose u i := (nth [::] Y 0)`_i ^+ 2.
rewrite (@fttr_loopE _ _ _ mu0 u) //; last first.
  move=> j; rewrite add0n => hj; have jn : (j < size d)%N by lia.
  have M : xdiv (Fin 1) (xsqrt (Fin mu0)) = Fin (Num.sqrt mu0)^-1 :> xnum F.
    by rewrite /= ltNge ltW //= sqrtr_eq0 leNgt mp /= div1r.
  exists (mkseq (zp theta`_j (Num.sqrt mu0)^-1 d e) (size d)).
  pose jo := Ordinal jn; pose v := col jo (rows_mx (size d) (size d) Y).
  have i0h : (0 < size d)%N by lia.
  have ev : jacobi (size d) (nth 0 d) (nth 0 e) *m v = theta`_j *: v.
    rewrite /v -colM hY colM; apply/colP => i; rewrite !mxE (bigD1 jo) //= big1 ?addr0 => [|l lj].
      by rewrite !mxE eqxx mulr1n mulrC.
    by rewrite !mxE eq_sym eq_sym (negbTE lj) mulr0n mulr0.
  have vv : \sum_i v i 0 ^+ 2 = 1.
    move/matrixP/(_ jo jo): oY; rewrite !mxE eqxx mulr1n => <-; apply: eq_bigr => i _; by rewrite !mxE expr2.
  have mu' : (Num.sqrt mu0)^-1 != 0 by rewrite invr_eq0 sqrtr_eq0 -ltNge.
  have [S0 SE] := @zp_weight theta`_j (Num.sqrt mu0)^-1 d e (size d) ub n2 v (Ordinal i0h) erefl ev vv mu'.
  have sumE : \sum_(z <- mkseq (zp theta`_j (Num.sqrt mu0)^-1 d e) (size d)) z ^+ 2 = \sum_(i < size d) zp theta`_j (Num.sqrt mu0)^-1 d e i ^+ 2.
    by rewrite big_map -{1}[size d]subn0 -/(index_iota 0 (size d)) big_mkord.
  rewrite sumE; split=> //.
    by rewrite M ortho_polyE // /mkseq -map_comp.
  rewrite SE exprVn sqr_sqrtr ?ltW // invrK mulfK ?gt_eqF //.
  by rewrite /u !mxE.
rewrite (@foldl_set u k (size d)) ?size_nseq //; congr Some; apply: eq_map => l /=.
by rewrite add0n nth_nseq if_same.
Qed.

(* ---- the front end -------------------------------------------------------------- *)
Section Front.
Variable lv : seq F -> seq F -> res (seq F).
Variable lp : seq F -> seq F -> res (seq F * seq (seq F)).
Hypothesis lapack : lapack_ok lv lp.
Local Notation quadrature := (quadrature lv lp).
Implicit Types (d e w : seq F) (Y : seq (seq F)) (m : string) (mi : int).

(* the off-diagonal with a leading entry *)
Definition full d e : seq F := if (size e).+1 == size d then 0 :: e else e.
Definition good d e : Prop := [/\ size (full d e) = size d, (0 < size d)%N & `|(full d e)`_0| * 10%:R ^+ 8 <= 1].
Definition lap m : Prop := m = "auto" \/ m = "mrrr".

Lemma eigh_full d e m mi : lap m -> size e = size d -> (0 < size d)%N ->
  exists w Y, [/\ lp d (behead e) = Ok (w, Y), lv d (behead e) = Ok w,
    eigh_tridiag lv lp d e m mi = Ok (EPairs w Y), eigvalsh_tridiag lv lp d e m mi = Ok (EVals w) &
    is_eigh (jacobi (size d) (nth 0 d) (nth 0 e)) w Y].
Proof.
move=> hm se d0; have sb : size d = (size (behead e)).+1 by rewrite size_behead se prednK.
have [w [Y [h1 h2 h3]]] := lapack sb; exists w, Y; split=> //.
- rewrite /eigh_tridiag /tridiag_front se eqxx orbT /= (_ : ((size d).+1 == size d) = false); last by lia.
  have ne : nilp (eye F (size d)) = false by case: (size d) d0.
  by case: hm => ->; rewrite /= /eigh_internal /= /eigh_mrrr ne h1.
- rewrite /eigvalsh_tridiag /tridiag_front se eqxx orbT /= (_ : ((size d).+1 == size d) = false); last by lia.
  by case: hm => ->; rewrite /= /eigh_internal /= /eigh_mrrr h2.
rewrite (_ : jacobi _ _ _ = tri_of d (behead e)) //; apply/matrixP => i j; rewrite !mxE.
case: eqP => // ne; case: eqP => h; first by rewrite -h /= nth_behead.
by case: eqP => // <-; rewrite /= nth_behead.
Qed.

Lemma quadE d e deg q ns ws m mi : good d e ->
  quadrature d e deg q ns ws m mi =
  let dg := (if deg is Some k then Num.min k (size d)%:Z else (size d)%:Z) : int in
  obnd (quad_rule lv lp d (full d e) dg q m mi) (fun r =>
      let: (theta, tau) := r in
      match ns, ws with
      | Some ns, Some ws =>
          if ((size ns)%:Z != dg) || ((size ws)%:Z != dg) then Raise AssertionError
          else match copyto ns theta, copyto ws tau with
               | Some ns', Some ws' => Ret (QRes theta tau (Some ns') (Some ws'))
               | _, _ => Raise ValueError
               end
      | _, _ => Ret (QRes theta tau ns ws)
      end).
Proof.
case=> h1 h2 h3; rewrite /ModelQuadrature.quadrature -/(full d e) h1 eqxx /=.
by have -> : (size d == 0%N) = false by [lia]; rewrite /isclose0 h3.
Qed.

Definition rdeg d (deg : option nat) : nat := if deg is Some k then minn k (size d) else size d.

Lemma jacobi_ext k (f g f' g' : nat -> F) : (forall i, (i < k)%N -> f i = f' i) -> (forall i, (0 < i < k)%N -> g i = g' i) ->
  jacobi k f g = jacobi k f' g'.
Proof.
move=> hf hg; apply/matrixP => i j; rewrite !mxE; case: eqP => [_|_]; first by rewrite hf.
have hi := ltn_ord i; have hj := ltn_ord j.
by case: eqP => [h|_]; [rewrite hg //; lia|case: eqP => [h|//]; rewrite hg //; lia].
Qed.

Lemma gw_rule d e deg q m mi : lap m -> good d e -> q = "gw" \/ q = "golub_welsch" ->
  let k := rdeg d deg in (0 < k)%N ->
  exists w Y, quad_rule lv lp d (full d e) k%:Z q m mi = Ret (w, [seq Fin (y ^+ 2) | y <- nth [::] Y 0]) /\
    is_eigh (jacobi k (nth 0 d) (nth 0 (full d e))) w Y.
Proof.
move=> hm [h1 h2 h3] hq k k0; have kn : (k <= size d)%N by rewrite /k /rdeg; case: (deg); lia.
have E : quad_rule lv lp d (full d e) k%:Z q m mi =
    match eigh_tridiag lv lp (take k d) (take k (full d e)) m mi with
    | Err x => Raise x | Ok (ENonFinite) => NonFin | Ok (EVals _) => Raise ValueError
    | Ok (EPairs w Y) => if Y is row :: _ then Ret (w, [seq Fin (y ^+ 2) | y <- row]) else Raise IndexError
    end by rewrite /quad_rule !slice_nat; case: hq => ->.
have [||w [Y [_ _ e1 _ eig]]] := @eigh_full (take k d) (take k (full d e)) m mi hm; try by rewrite !size_takel // h1.
rewrite E e1; exists w, Y; rewrite size_takel // in eig; split.
  by case: (eig) => _ sY _ _ _; case: (Y) sY k0 => // <-.
rewrite (_ : jacobi k _ _ = jacobi k (nth 0 (take k d)) (nth 0 (take k (full d e)))) //.
by apply: jacobi_ext => i hi; rewrite nth_take //; lia.
Qed.

(* Golub-Welsch: the rule of degree k has k non-negative weights summing to 1 and
   integrates every polynomial to the entry (0,0) of p(T), T being the leading
   k x k part of the matrix *)
Theorem C54_golub_welsch d e (deg : option nat) q m mi : lap m -> good d e -> q = "gw" \/ q = "golub_welsch" ->
  let k := rdeg d deg in
  forall i0 : 'I_k, i0 = 0%N :> nat ->
  exists theta tau, [/\ quadrature d e (omap Posz deg) q None None m mi = Ret (QRes theta [seq Fin t | t <- tau] None None),
     size theta = k /\ size tau = k, (forall t, t \in tau -> 0 <= t), \sum_(t <- tau) t = 1 &
     forall p : {poly F}, \sum_(j < k) tau`_j * p.[theta`_j] = polymx p (jacobi k (nth 0 d) (nth 0 (full d e))) i0 i0].
Proof.
move=> hm hg hq k i0 i00; have k0 : (0 < k)%N by exact: leq_ltn_trans (ltn_ord i0).
have [w [Y [h1 eig]]] := gw_rule mi hm hg hq k0; have [sw sY aY oY _] := eig.
exists w, [seq y ^+ 2 | y <- nth [::] Y 0].
have sr : size (nth [::] Y 0) = k by apply/eqP; apply: (allP aY); rewrite mem_nth ?sY.
have nE (j : 'I_k) : [seq y ^+ 2 | y <- nth [::] Y 0]`_j = (nth [::] Y i0)`_j ^+ 2.
  by rewrite (nth_map 0) ?sr // i00.
split.
- rewrite quadE //= (_ : (if omap Posz deg is Some k then Num.min k (size d)%:Z else (size d)%:Z) = k%:Z).
    by rewrite h1 /= -map_comp.
  by rewrite /k /rdeg; case: (deg) => //= x; lia.
- by rewrite size_map.
- by move=> t /mapP[y _ ->]; rewrite sqr_ge0.
- rewrite -(row_unit i0 eig) (big_nth 0) size_map sr big_mkord; apply: eq_bigr => j _; exact: nE.
by move=> p; rewrite (quad_sum i0 p eig); apply: eq_bigr => j _; rewrite nE.
Qed.

(* on an unreduced matrix of order at least 2, 'fttr' returns exactly what
   'gw' returns, output arrays included *)
Theorem C57_fttr_is_golub_welsch d e ns ws m mi : lap m -> good d e -> (2 <= size d)%N ->
  (forall i, (0 < i < size d)%N -> (full d e)`_i != 0) ->
  quadrature d e None "fttr" ns ws m mi = quadrature d e None "gw" ns ws m mi.
Proof.
move=> hm hg n2 ub; rewrite !quadE //=; congr obnd; case: hg => h1 h2 h3.
have [w [Y [_ _ e1 e2 eig]]] := @eigh_full d (full d e) m mi hm h1 h2.
have [sw sY aY oY hY] := eig.
rewrite /quad_rule /= !slice_nat !take_oversize ?h1 // e1 e2.
have sr : size (nth [::] Y 0) = size d by apply/eqP; apply: (allP aY); rewrite mem_nth ?sY.
rewrite sw (@C57_fttr_weights d (full d e) w Y (size d)) //; last first.
  rewrite take_oversize ?sw //; apply/negP => /eqP s0.
  have w0 : forall t, t \in w -> t = 0.
    move=> t tw; apply/eqP; rewrite -normr_eq0; move/eqP: s0; rewrite psumr_eq0 // => /allP /(_ t tw) //.
  have D0 : diag_mx (\row_j w`_j) = 0 :> 'M[F]_(size d).
    by apply/matrixP => i j; rewrite !mxE (w0 w`_i) ?mul0rn // mem_nth // sw.
  have T0 : jacobi (size d) (nth 0 d) (nth 0 (full d e)) = 0.
    have oY' := mulmx1C oY; rewrite D0 mulmx0 in hY.
    by rewrite -[LHS]mulmx1 -oY' mulmxA hY mul0mx.
  have n1 : (1 < size d)%N by []; have n0 : (0 < size d)%N by lia.
  move/matrixP/(_ (Ordinal n0) (Ordinal n1)): T0; rewrite !mxE /= => /eqP.
  by rewrite (negbTE (ub 1%N _)) // n1.
case: (Y) sr sY => [|row Y'] /= sr sY; first by rewrite -sY in h2.
congr (Ret (_, _)); apply: (@eq_from_nth _ (Fin 0)); rewrite size_mkseq ?size_map ?sr // => i hi.
by rewrite nth_mkseq // hi (nth_map 0) ?sr.
Qed.

(* ---- C58 -------------------------------------------------------------------------- *)
Lemma degE d (deg : option nat) :
  (if omap Posz deg is Some k then Num.min k (size d)%:Z else (size d)%:Z) = (rdeg d deg)%:Z :> int.
Proof. by rewrite /rdeg; case: deg => //= x; lia. Qed.

(* 'gw' returns deg nodes and deg weights; output arrays must have that length and
   receive them; a single output array is ignored *)
Theorem C58_gw d e (deg : option nat) q m mi : lap m -> good d e -> q = "gw" \/ q = "golub_welsch" ->
  let k := rdeg d deg in (0 < k)%N ->
  exists theta tau, [/\ size theta = k, size tau = k &
    forall ns ws, quadrature d e (omap Posz deg) q ns ws m mi =
      match ns, ws with
      | Some a, Some b => if (size a == k) && (size b == k) then Ret (QRes theta tau (Some theta) (Some tau))
                          else Raise AssertionError
      | _, _ => Ret (QRes theta tau ns ws)
      end].
Proof.
move=> hm hg hq k k0; have [w [Y [h1 [sw sY aY oY _]]]] := gw_rule mi hm hg hq k0.
have sr : size (nth [::] Y 0) = k by apply/eqP; apply: (allP aY); rewrite mem_nth ?sY.
exists w, [seq Fin (y ^+ 2) | y <- nth [::] Y 0]; rewrite size_map; split=> // ns ws.
rewrite quadE // degE /= h1 /=; case: ns => [a|]; case: ws => [b|] //.
rewrite !eqz_nat -/k -negb_and; case: andP => //= -[/eqP sa /eqP sb].
by rewrite /copyto size_map sw sr sa sb !eqxx.
Qed.

Lemma fttr_loop_some theta a b (mu0 msr : xnum F) k i n ws : (2 <= size a)%N -> size ws = n -> (i + k <= n)%N ->
  exists ws', [/\ fttr_loop theta a b mu0 msr k i ws = Some ws', size ws' = n &
    forall l, (i + k <= l)%N -> nth (Fin 0) ws' l = nth (Fin 0) ws l].
Proof.
move=> a2; elim: k i ws => [|k IH] i ws sw ik /=.
  by exists ws; split=> // l _; rewrite nth_set_nth /= eqxx.
rewrite /ortho_poly ltnNge a2 /=.
set ws1 := set_nth _ ws i _; have [||ws' [h1 h2 h3]] := IH i.+1 ws1; first by rewrite size_set_nth sw; lia.
  by lia.
exists ws'; split=> // l hl; rewrite h3; last by lia.
by rewrite nth_set_nth /= (_ : (l == i) = false) //; lia.
Qed.

(* 'fttr' of degree k < n returns n nodes and n weights, n - k of them zero, and
   refuses output arrays of length k *)
Theorem C58_fttr_length_refuted d e (k : nat) m mi : lap m -> good d e -> (2 <= size d)%N -> (k < size d)%N ->
  exists theta tau, [/\ quadrature d e (Some k%:Z) "fttr" None None m mi = Ret (QRes theta tau None None),
    size theta = size d, size tau = size d, (forall i, (k <= i)%N -> nth (Fin 0) tau i = Fin 0) &
    forall ns ws, size ns = k -> size ws = k ->
      quadrature d e (Some k%:Z) "fttr" (Some ns) (Some ws) m mi = Raise ValueError].
Proof.
move=> hm hg n2 kn; have [h1 h2 h3] := hg.
have [w [Y [_ _ _ e2 [sw _ _ _ _]]]] := @eigh_full d (full d e) m mi hm h1 h2.
have dg : Num.min k%:Z (size d)%:Z = k%:Z by lia.
have [|ws' [f1 f2 f3]] := @fttr_loop_some w d (full d e) (Fin (\sum_(x <- take k w) `|x|))
   (xdiv (Fin 1) (xsqrt (Fin (\sum_(x <- take k w) `|x|)))) k 0 (size d) (nseq (size d) (Fin 0)) n2 _ (ltnW kn).
  by rewrite size_nseq.
have Q : quad_rule lv lp d (full d e) k%:Z "fttr" m mi = Ret (w, ws').
  rewrite /quad_rule /= e2 /fttr slice_nat sw (_ : (if 0 < k%:Z then `|k%:Z|%N else 0%N) = k) ?f1 //.
  by case: (k).
exists w, ws'; split=> //.
- by rewrite quadE //= dg Q.
- by move=> i hi; rewrite f3 // nth_nseq if_same.
move=> ns ws sn sws; rewrite quadE //= dg Q /= sn sws eqxx /= /copyto sn sw (_ : (size d == k) = false); last by lia.
by case: (w) sw => [|x [|y w']] // sw; rewrite -sw in n2.
Qed.

(* on a 1 x 1 matrix FTTR accesses an array out of bounds *)
Theorem C58_fttr_1x1_refuted d e (deg : option nat) ns ws m mi : lap m -> good d e -> size d = 1%N -> rdeg d deg = 1%N ->
  quadrature d e (omap Posz deg) "fttr" ns ws m mi = Undef.
Proof.
move=> hm hg d1 k1; have [h1 h2 h3] := hg; rewrite quadE // degE k1 /=.
have [w [Y [_ _ _ e2 _]]] := @eigh_full d (full d e) m mi hm h1 h2.
by rewrite /quad_rule /= e2 /fttr /= d1.
Qed.

(* a negative degree -j is not rejected: it counts from the end.  The rule of
   degree n - j is returned, but output arrays are refused *)
Theorem C58_negative_degree d e (j : nat) q m mi ns ws : lap m -> good d e -> q = "gw" \/ q = "golub_welsch" ->
  (0 < j < size d)%N ->
  quadrature d e (Some (- j%:Z)) q None None m mi = quadrature d e (Some (size d - j)%N%:Z) q None None m mi /\
  quadrature d e (Some (- j%:Z)) q (Some ns) (Some ws) m mi = Raise AssertionError.
Proof.
move=> hm hg hq hj; have [h1 h2 h3] := hg.
have dg : Num.min (- j%:Z) (size d)%:Z = - j%:Z by lia.
have dg2 : Num.min (size d - j)%N%:Z (size d)%:Z = (size d - j)%N%:Z by lia.
have S T (s : seq T) : size s = size d -> slice (- j%:Z) s = slice (size d - j)%N%:Z s.
  by move=> ss; rewrite slice_nat /slice ss; case: ifP => h; congr take; lia.
have E : quad_rule lv lp d (full d e) (- j%:Z) q m mi = quad_rule lv lp d (full d e) (size d - j)%N%:Z q m mi.
  by rewrite /quad_rule; case: hq => ->; rewrite /= !S.
split; first by rewrite !quadE //= dg dg2 E.
have k0 : (0 < rdeg d (Some (size d - j)%N))%N by rewrite /rdeg; lia.
have [w [Y [r1 _]]] := gw_rule (deg := Some (size d - j)%N) mi hm hg hq k0.
rewrite quadE //= dg E; move: r1; rewrite /rdeg (_ : minn _ _ = size d - j)%N; last by lia.
by move=> -> /=; case: eqP => //; lia.
Qed.
End Front.

(* rejected arguments, whatever LAPACK does *)
Theorem C58_rejects lv lp d e deg q ns ws m mi :
  [/\ good d e -> q <> "gw" -> q <> "golub_welsch" -> q <> "fttr" -> quadrature lv lp d e deg q ns ws m mi = Raise ValueError,
      size (full d e) <> size d -> quadrature lv lp d e deg q ns ws m mi = Raise AssertionError,
      size e = size d -> (0 < size d)%N -> 1 < `|e`_0| * 10%:R ^+ 8 -> quadrature lv lp d e deg q ns ws m mi = Raise AssertionError &
      quadrature lv lp [::] [::] deg q ns ws m mi = Raise IndexError].
Proof.
split=> //.
- move=> hg h1 h2 h3; rewrite quadE // /quad_rule.
  by move/String.eqb_neq: h1 => ->; move/String.eqb_neq: h2 => ->; move/String.eqb_neq: h3 => ->.
- by move=> h; rewrite /quadrature -/(full d e) eq_sym; case: eqP.
- move=> se d0 h; rewrite /quadrature se (_ : ((size d).+1 == size d) = false) ?se ?eqxx /=; last by lia.
  have -> : (size d == 0%N) = false by lia.
  by rewrite /isclose0 leNgt h.
Qed.

(* ---- the hypotheses are met ---------------------------------------------------------- *)
Example C54_ex : lapack_ok (@ref_vals F) (@ref_pairs F) /\
  good [:: 1; 2%:R; 3%:R] [:: 1; 5%:R] /\ good [:: 1; 2%:R; 3%:R] [:: 0; 1; 5%:R] /\
  rdeg [:: 1; 2%:R; 3%:R : F] (Some 2%N) = 2%N /\
  (forall i, (0 < i < 3)%N -> (full [:: 1; 2%:R; 3%:R] [:: 1; 5%:R : F])`_i != 0) /\
  good [:: 7%:R] [::].
Proof.
split; first exact: ref_ok; do !split=> //=; rewrite ?normr0 ?mul0r ?ler01 //.
by case=> [|[|[|i]]] //= _; rewrite ?oner_neq0 // pnatr_eq0.
Qed.
End Main.

Print Assumptions C57_fttr_weights.
Print Assumptions C54_golub_welsch.
Print Assumptions C57_fttr_is_golub_welsch.
Print Assumptions C58_gw.
Print Assumptions C58_fttr_length_refuted.
Print Assumptions C58_fttr_1x1_refuted.
Print Assumptions C58_negative_degree.
Print Assumptions C58_rejects.
