(* C85: the baseline _lanczos_py of lanczos.py runs the textbook recurrence; its stopping test does not detect an
   exhausted Krylov space. *)
From mathcomp Require Import all_ssreflect all_algebra zify ring.
From Verif Require Import Base ModelXtrace LemXtrace ModelLanczos SpecLanczos LemLanczos LemLanczos2 ModelLanczosRef PropLanczosRef.
Set Implicit Arguments.
Unset Strict Implicit.
Unset Printing Implicit Defensive.
Import Order.TTheory GRing.Theory Num.Theory.
Local Open Scope ring_scope.

Section Base.
Variable F : rcfType.
Variable n : nat.
Variable A : 'M[F]_n.
Variable q0 : 'cV[F]_n.
Variable tol : F.
Local Notation la := (la A q0).
Local Notation lb := (lb A q0).
Local Notation lq := (lq A q0).
Local Notation lp := (lp A q0).
Local Notation lr := (lr A q0).

(* the arrays after s steps *)
Definition aof (s : nat) : seq F := mkseq (fun j => if (j < s)%N then la j else 0) n.+1.
Definition bof (s : nat) : seq F := mkseq (fun j => if (j <= s)%N then lb j else 0) n.+1.

Lemma base_loopS r i qp qc al be : base_loop A tol r.+1 i qp qc al be =
  let w := npsubs (npmul A qc) be`_i qp in
  let a := npdot w qc in
  let qn := npsubs w a qc in
  let b := npnorm qn in
  if isclose b tol then Some (set_nth 0 al i a, set_nth 0 be i.+1 b)
  else if (b == 0) && (0 < r)%N then None
  else base_loop A tol r i.+1 qc [seq x / b | x <- qn] (set_nth 0 al i a) (set_nth 0 be i.+1 b).
Proof. by []. Qed.

Lemma base_run r i : (i + r <= n)%N ->
  exists s, [/\ (i <= s <= i + r)%N, (0 < r)%N -> (i < s)%N, forall j, (i < j < s)%N -> ~~ isclose (lb j) tol /\ lb j != 0 &
   if ((s < i + r)%N && (lb s == 0) && ~~ isclose (lb s) tol) 
   then base_loop A tol r i (cseq (lp i)) (cseq (lq i)) (aof i) (bof i) = None
   else (s = (i + r)%N \/ isclose (lb s) tol) /\
      base_loop A tol r i (cseq (lp i)) (cseq (lq i)) (aof i) (bof i) = Some (aof s, bof s)].
Proof.
elim: r i => [|r IH] i hi.
  exists i; split; [by rewrite addn0 leqnn|by []|by move=> j hj; exfalso; lia|].
  by rewrite addn0 ltnn; split; [left|].
have ea : set_nth 0 (aof i) i (la i) = aof i.+1.
  rewrite /aof set_mkseq; last by lia.
  by apply: eq_map => j; rewrite /upd ltnS [(j <= i)%N]leq_eqVlt; case: eqP => [->|].
have eb : set_nth 0 (bof i) i.+1 (lb i.+1) = bof i.+1.
  rewrite /bof set_mkseq; last by lia.
  by apply: eq_map => j; rewrite /upd [(j <= i.+1)%N]leq_eqVlt ltnS; case: eqP => [->|].
have step : base_loop A tol r.+1 i (cseq (lp i)) (cseq (lq i)) (aof i) (bof i) =
  if isclose (lb i.+1) tol then Some (aof i.+1, bof i.+1) else if (lb i.+1 == 0) && (0 < r)%N then None
  else base_loop A tol r i.+1 (cseq (lp i.+1)) (cseq (lq i.+1)) (aof i.+1) (bof i.+1).
  have bi : (bof i)`_i = lb i by rewrite nth_mkseq ?leqnn //; lia.
  rewrite base_loopS; cbv zeta; rewrite bi npmul_cseq npsubs_cseq npdot_cseq [dt _ (lq i)]dtC -laE npsubs_cseq -lrE npnorm_cseq -vnormE -lbS.
  by rewrite ea eb scale_cseq -lqS lpS.
rewrite step; case: ifP => hc.
  exists i.+1; split; [lia|lia|by move=> j hj; exfalso; lia|].
  by rewrite hc andbF; split; [right|].
case: ifP => hz.
  exists i.+1; split; [lia|lia|by move=> j hj; exfalso; lia|].
  by case/andP: hz => hz r0; rewrite hc hz (_ : (_ < _)%N) //; lia.
have [|s [h1 h2 h3 h4]] := IH i.+1; first by lia.
have e : (i.+1 + r = i + r.+1)%N by lia.
exists s; rewrite -e; split=> //; [by lia|by lia|move=> j hj].
have [ej|nj] := eqVneq j i.+1; last by apply: h3; move/eqP: nj; lia.
subst j; rewrite hc; split=> //; apply/negP => hz'; move: hz; rewrite hz' /=.
case: r h1 {IH hi step h2 h4 e} => // h1; lia.
Qed.
End Base.

Section C85.
Variable F : rcfType.
Variable n : nat.
Variable A : 'M[F]_n.
Variable v : 'cV[F]_n.
Hypothesis v0 : v != 0.
Let q0 : 'cV[F]_n := (vnorm v)^-1 *: v.
Let vs : seq F := [seq v i 0 | i <- enum 'I_n].

Lemma base_start (k : nat) (tol : F) : (0 < k <= n)%N ->
  lanczos_base A vs k%:Z tol = Ok (base_loop A tol k 0 (cseq (lp A q0 0)) (cseq (lq A q0 0)) (aof A q0 0) (bof A q0 0)).
Proof.
move=> /andP[k0 kn]; rewrite /lanczos_base -[vs]/(cseq v) size_cseq eqxx npnorm_cseq -vnormE vnorm_eq0 (negPf v0).
have -> : (k%:Z <= n%:Z) = true by lia.
have -> : (0 < k%:Z) = true by lia.
rewrite /= lp0 lq0 -zero_cseq scale_cseq; congr (Ok (base_loop _ _ _ _ _ _ _ _)).
- by rewrite -[0 :: _]/(nseq n.+1 0) nseq_mkseq; apply: eq_map.
- by rewrite -[0 :: _]/(nseq n.+1 0) nseq_mkseq; apply: eq_map => -[|j] //=; rewrite lb0.
Qed.

(* What is returned: after s steps alpha and beta hold the coefficients of the recurrence and zeros behind them; s is
   k or the first step whose beta is close to tol. *)
Theorem C85_coefficients (k : nat) (tol : F) (a b : seq F) : (0 < k <= n)%N ->
  lanczos_base A vs k%:Z tol = Ok (Some (a, b)) ->
  exists s, [/\ (0 < s <= k)%N,
    size a = n.+1 /\ forall j, (j <= n)%N -> a`_j = if (j < s)%N then la A q0 j else 0,
    size b = n.+1 /\ forall j, (j <= n)%N -> b`_j = if (j <= s)%N then lb A q0 j else 0,
    forall j, (0 < j < s)%N -> ~~ isclose (lb A q0 j) tol &
    s = k \/ isclose (lb A q0 s) tol].
Proof.
move=> hk; rewrite base_start //.
have [|s [h1 h2 h3]] := @base_run F n A q0 tol k 0; first by lia.
case: ifP => [_ -> //|_ [hs ->]] [<- <-]; exists s; split=> //; first by lia.
- by split=> [|j hj]; rewrite ?size_mkseq ?nth_mkseq.
- by split=> [|j hj]; rewrite ?size_mkseq ?nth_mkseq.
by move=> j hj; case: (h3 j).
Qed.

(* The arrays are not finite exactly when some beta before the last step is zero, and that zero is not close to tol. *)
Theorem C85_nonfinite (k : nat) (tol : F) : (0 < k <= n)%N ->
  lanczos_base A vs k%:Z tol = Ok None <->
  exists s, [/\ (0 < s < k)%N, lb A q0 s = 0, forall j, (0 < j <= s)%N -> ~~ isclose (lb A q0 j) tol &
     forall j, (0 < j < s)%N -> lb A q0 j != 0].
Proof.
move=> hk; rewrite base_start //.
have [|s [h1 h2 h3]] := @base_run F n A q0 tol k 0; first by lia.
have k0 : (0 < k)%N by lia.
case: ifP => [/andP[/andP[hs hz] hc] ->|hn [hs ->]]; split=> //.
  move=> _; exists s; split; [lia|exact/eqP| |by move=> j hj; case: (h3 j)].
  by move=> j hj; have [->//|nj] := eqVneq j s; case: (h3 j) => //; move/eqP: nj; lia.
case=> s' [hs' z' hc' hz']; exfalso.
have [lt|gt|e] := ltngtP s s'.
- have : isclose (lb A q0 s) tol by case: hs => // e; lia.
  by apply/negP/hc'; lia.
- by have [|_] := h3 s'; [lia|rewrite z' eqxx].
move: hn; rewrite e z' eqxx andbT => /negP; apply; apply/andP; split; first by lia.
by rewrite -[X in isclose X]z'; apply: hc'; lia.
Qed.

(* np.isclose(0, tol) *)
Theorem C85_isclose0 (tol : F) : 0 <= tol -> isclose 0 tol = (tol * (10%:R ^+ 8 - 10%:R ^+ 3) <= 1).
Proof.
move=> t0; rewrite /isclose sub0r normrN (ger0_norm t0) -subr_ge0 -[RHS]subr_ge0.
have p8 : 0 < 10%:R ^+ 8 :> F by rewrite exprn_gt0 // ltr0n.
rewrite -(pmulr_rge0 _ p8); congr (0 <= _).
have e8 : 10%:R ^+ 8 * 10%:R ^- 8 = 1 :> F by rewrite divff // lt0r_neq0.
have e5 : 10%:R ^+ 8 * 10%:R ^- 5 = 10%:R ^+ 3 :> F.
  by rewrite (_ : 8 = 3 + 5)%N // exprD mulfK // lt0r_neq0 // exprn_gt0 // ltr0n.
move: e8 e5; move: (10%:R ^+ 8) (10%:R ^- 8) (10%:R ^- 5) (10%:R ^+ 3) => x c d y e8 e5.
have -> : x * (c + d * tol - tol) = x * c + x * d * tol - x * tol by ring.
by rewrite e8 e5; ring.
Qed.

(* The test meant to detect an exhausted Krylov space: started at an eigenvector, with any tolerance above 1.1e-8, the
   first residual vanishes and the loop goes on to divide by it. *)
Theorem C85_breakdown_refuted (k : nat) (tol lam : F) : (2 <= k <= n)%N ->
  A *m v = lam *: v -> 1 < tol * (10%:R ^+ 8 - 10%:R ^+ 3) -> 0 < tol ->
  lanczos_base A vs k%:Z tol = Ok None.
Proof.
move=> hk ev ht t0; apply/C85_nonfinite; first by lia.
have e1 : lb A q0 1 = 0.
  rewrite lbS lrE lb0 lp0 lq0 scaler0 subr0 laE lq0 lb0 lp0 scaler0 subr0.
  have -> : A *m q0 = lam *: q0 by rewrite /q0 -scalemxAr ev !scalerA mulrC.
  rewrite dtZr -[dt q0 q0]vnorm_sq.
  have -> : vnorm q0 ^+ 2 = 1.
    rewrite vnorm_sq /q0 dtZr dtZl mulrA -expr2 -vnorm_sq -exprMn mulVf ?expr1n // vnorm_eq0 //.
  by rewrite mulr1 subrr; apply/eqP; rewrite vnorm_eq0.
exists 1%N; split=> //; first by lia.
- move=> j hj; have -> : j = 1%N by lia.
  by rewrite e1 C85_isclose0; [rewrite -ltNge|exact: ltW].
- by move=> j hj; exfalso; lia.
Qed.
End C85.

(* the identity, the first unit vector, tol = 1 *)
Example C85_ex (F : rcfType) :
  lanczos_base (1%:M : 'M[F]_2) [seq (delta_mx 0 0 : 'cV[F]_2) i 0 | i <- enum 'I_2] 2 1 = Ok None.
Proof.
apply: (@C85_breakdown_refuted F 2 1%:M (delta_mx 0 0) _ 2 1 1) => //.
- by apply/eqP => /matrixP/(_ 0 0)/eqP; rewrite !mxE !eqxx /= oner_eq0.
- by rewrite mul1mx scale1r.
- by rewrite mul1r -!natrX -natrB ?ltr1n // leq_exp2l.
exact: ltr01.
Qed.

Print Assumptions C85_coefficients.
Print Assumptions C85_nonfinite.
Print Assumptions C85_isclose0.
Print Assumptions C85_breakdown_refuted.
