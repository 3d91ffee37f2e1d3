(* C68, C69, C80, C82: isotropic and its callers. *)
From Coq Require Import String.
From mathcomp Require Import all_ssreflect all_algebra zify ring.
From Verif Require Import Base Spec ModelStats ModelEstimators ModelTyping ModelRandom ModelRandom2 ModelTrace ModelHutchpp ModelXtrace LemFill
  LemTrace PropTrace.
Set Implicit Arguments.
Unset Strict Implicit.
Unset Printing Implicit Defensive.
Import Order.TTheory GRing.Theory Num.Theory.
Local Open Scope ring_scope.

(* ---- spec --------------------------------------------------------------------------- *)
Section Spec.
Variable F : rcfType.
(* which draw ends up in row r and column c of an n x k array *)
Definition draw_no (l : layout) (n k r c : nat) : nat := if l is COrder then (r * k + c)%N else (c * n + r)%N.
(* the array (as columns) whose entries are the draws xs in that order *)
Definition laid (T : Type) (x0 : T) (l : layout) (n k : nat) (xs : seq T) : seq (seq T) :=
  [seq [seq nth x0 xs (draw_no l n k r c) | r <- iota 0 n] | c <- iota 0 k].
Definition sign_of (x : rat) : F := if x < 1 / 2%:R then -1 else 1.
(* rationals with p significant bits: the numbers of a binary floating-point
   format up to over- and underflow *)
Definition bits (p : nat) (x : rat) : Prop :=
  exists (m : int) (e : int), (`|m| <= 2 ^ p)%N /\ x = m%:~R * 2%:R ^ e.
End Spec.

Section P.
Variable F : rcfType.
Variable G : Type.
Variable unif : G -> rat * G.
Variable gauss : G -> F * G.
Local Notation iso_fill := (@iso_fill F G unif gauss).
Local Notation icall := (@isotropic_call F G unif gauss).
Local Notation nm := (PName F G).

Lemma drawsD (T : Type) (d : G -> T * G) a b g :
  draws d (a + b) g = (cat (draws d a g).1 (draws d b (draws d a g).2).1, (draws d b (draws d a g).2).2).
Proof.
elim: a g => [|a IH] g /=; first by case: (draws d b g).
by case: (d g) => x g1; rewrite IH; case: (draws d a g1) => s g2 /=; case: (draws d b g2).
Qed.

Lemma fill_colsE (T : Type) (x0 : T) (d : G -> T * G) n k g :
  fill_cols d n k g = (laid x0 FOrder n k (draws d (n * k) g).1, (draws d (n * k) g).2).
Proof.
rewrite mulnC; elim: k g => [//|k IH] g /=; rewrite mulSn drawsD.
have sz := size_draws d n g; case: (draws d n g) sz => c g1 /= sz; rewrite IH.
have sz2 := size_draws d (k * n) g1; case: (draws d (k * n) g1) sz2 => s g2 /= sz2; congr (_, _).
rewrite /laid /= -(addn0 1%N) iotaDl -!map_comp; congr cons.
  apply: (@eq_from_nth _ x0) => [|i hi]; first by rewrite size_map size_iota.
  rewrite sz in hi; rewrite (nth_map 0%N) ?size_iota // nth_iota // add0n.
  by rewrite nth_cat sz hi.
apply: eq_map => i /=; apply: eq_map => r; rewrite nth_cat sz mulnDl mul1n -addnA ltnNge leq_addr /=.
by rewrite addKn.
Qed.

Lemma fill_rowsE (T : Type) (x0 : T) (d : G -> T * G) n k g :
  fill_rows x0 d n k g = (laid x0 COrder n k (draws d (n * k) g).1, (draws d (n * k) g).2).
Proof. by rewrite /fill_rows; case: (draws d (n * k) g). Qed.

(* ---- C68 ------------------------------------------------------------------------------ *)
Section Signs.
Hypothesis unifP : forall g, 0 <= (unif g).1 < 1.

Lemma draw_no_lt l n k r c : (r < n)%N -> (c < k)%N -> (draw_no l n k r c < n * k)%N.
Proof.
move=> rn ck; have H1 : (r.+1 * k <= n * k)%N by rewrite leq_mul2r rn orbT.
have H2 : (c.+1 * n <= n * k)%N by rewrite [(n * k)%N]mulnC leq_mul2r ck orbT.
by case: l => /=; [apply: leq_trans H1|apply: leq_trans H2..]; rewrite mulSn addnC ltn_add2r.
Qed.

Lemma laid_signs l n k g : l <> Strided ->
  [seq [seq ratr (rademacher_entry x) | x <- c] | c <- laid 0 l n k (draws unif (n * k) g).1] =
  laid 0 l n k [seq sign_of F x | x <- (draws unif (n * k) g).1].
Proof.
have sz := size_draws unif (n * k) g; have hu := @draws_unif _ _ unifP (n * k) g; set us := (draws _ _ _).1 in sz hu *.
move=> _; rewrite /laid -map_comp; apply/eq_in_map => c; rewrite mem_iota add0n /= => ck.
rewrite -map_comp; apply/eq_in_map => r; rewrite mem_iota add0n /= => rn.
have hi : (draw_no l n k r c < size us)%N by rewrite sz draw_no_lt.
rewrite (nth_map 0) // rademacher_pm1 ?hu ?mem_nth // /sign_of.
by case: ifP => _; rewrite ?rmorphN rmorph1.
Qed.

Theorem C68_signs s g : s = "rademacher"%string \/ s = "signs"%string ->
  let D m := draws unif m g in
  let W l n k := laid 0 l n k [seq sign_of F x | x <- (D (n * k)%N).1] in
  [/\ forall n k, icall (SizePair n k) (nm s) OutNone g = Ok (RArray G (W FOrder n k), (D (n * k)%N).2),
      forall n, icall (SizeInt n) (nm s) OutNone g = Ok (RArray G (W FOrder n 1%N), (D (n * 1)%N).2),
      forall sz l n k, l <> Strided ->
        icall sz (nm s) (OutArray l OF64 n k) g = Ok (RFilled G (W l n k), (D (n * k)%N).2) &
      exists f, icall SizeNone (nm s) OutNone g = Ok (RSampler f, g) /\
        forall n k g1, f n k g1 = (laid 0 FOrder n k [seq sign_of F x | x <- (draws unif (n * k) g1).1],
                                   (draws unif (n * k) g1).2)].
Proof.
move=> hs D W; have fc n k g1 : iso_fill Rademacher n k g1 =
    (laid 0 FOrder n k [seq sign_of F x | x <- (draws unif (n * k) g1).1], (draws unif (n * k) g1).2).
  by rewrite /= (fill_colsE 0) laid_signs.
have hl : lookup s ISO_DISTRIBUTIONS = Some Rademacher by case: hs => ->.
rewrite /isotropic_call hl; split.
- by move=> n k; rewrite fc.
- by move=> n; rewrite fc.
- by move=> sz [] n k //= _; rewrite ?fill_rowsE ?(fill_colsE 0) laid_signs.
- by exists (iso_fill Rademacher).
Qed.
End Signs.

(* Every intermediate result is a number of the format, so rounding never acts:
   for 53-bit draws the doubles computed are exactly the ideal signs *)
Theorem C68_exact p (rnd : rat -> rat) (m : nat) :
  (forall x, bits p x -> rnd x = x) -> (m < 2 ^ p)%N ->
  let x := m%:R / 2%:R ^+ p in
  rademacher_rounded rnd x = if (2 * m < 2 ^ p)%N then -1 else 1.
Proof.
move=> hr hm x; have two0 : 2%:R != 0 :> rat by [].
have e2 : 2%:R ^+ p = (2 ^ p)%:R :> rat by rewrite natrX.
have P0 : 0 < (2 ^ p)%:R :> rat by rewrite ltr0n expn_gt0.
have bi (z : int) : (`|z| <= 2 ^ p)%N -> bits p z%:~R by move=> h; exists z, 0; rewrite expr0z mulr1.
have p1 : (1 <= 2 ^ p)%N by rewrite expn_gt0.
have x01 : 0 <= x < 1.
  by rewrite /x e2 ler_pdivl_mulr // mul0r ltr_pdivr_mulr // mul1r ler0n ltr_nat.
have b1 : bits p (x * 2%:R).
  exists m%:Z, (1 - p%:Z); split; first by rewrite absz_nat ltnW.
  by rewrite expfzDr // expr1z -exprnN /x mulrAC -mulrA [2%:R * _]mulrC.
rewrite /rademacher_rounded (hr _ b1).
have cm : (x < 1 / 2%:R) = (2 * m < 2 ^ p)%N.
  by rewrite ltr_pdivl_mulr // /x e2 mulrAC ltr_pdivr_mulr // mul1r -natrM ltr_nat mulnC.
have -> : floorq (x * 2%:R) = if (2 * m < 2 ^ p)%N then 0%:~R else 1%:~R.
  rewrite -cm; case/andP: x01 => x0 x1; case: ifP => [h|/negbT].
    by apply: floorq_unit; rewrite add0r /= mulr_ge0 //= -ltr_pdivl_mulr.
  by rewrite -leNgt => h; apply: floorq_unit; rewrite -ler_pdivr_mulr // h /= -ltr_pdivl_mulr.
case: ifP => _.
  by rewrite (hr 0%:~R) ?mul0r ?(hr 0) ?sub0r; [rewrite (hr (-1)) //; apply: (bi (-1))|apply: (bi 0)..].
rewrite (hr 1%:~R); last exact: (bi 1).
rewrite mul1r (hr 2%:R); last by exists 1, 1; rewrite expr1z mul1r.
have -> : 2%:R - 1 = 1 :> rat by [].
by rewrite (hr 1) //; apply: (bi 1).
Qed.

(* ---- C69 ------------------------------------------------------------------------------ *)
(* cs are the columns zs moved to the sphere of radius sqrt n along their own direction *)
Definition on_sphere (n : nat) (cs zs : seq (seq F)) : Prop :=
  size cs = size zs /\
  forall c, (c < size zs)%N -> has (fun z => z != 0) (nth [::] zs c) ->
    \sum_(x <- nth [::] cs c) x ^+ 2 = n%:R /\
    exists2 a : F, 0 < a & nth [::] cs c = [seq a * z | z <- nth [::] zs c].

Lemma sphere_colE (z : seq F) : has (fun x => x != 0) z ->
  \sum_(x <- sphere_col z) x ^+ 2 = (size z)%:R /\ exists2 a : F, 0 < a & sphere_col z = [seq a * x | x <- z].
Proof.
move=> hz; set S := \sum_(x <- z) x ^+ 2.
have S0 : 0 < S.
  rewrite lt_neqAle sumr_ge0 1?andbT => [|x _]; last exact: sqr_ge0.
  case/hasP: hz => x xz nx; apply/eqP => /esym/eqP; rewrite /S psumr_eq0 => [/allP/(_ x xz) /=|y _]; last exact: sqr_ge0.
  by rewrite sqrf_eq0 (negbTE nx).
have n0 : (0 < size z)%N by case: z hz {S S0}.
have c0 : 0 < Num.sqrt S by rewrite sqrtr_gt0.
split; last first.
  exists (Num.sqrt (size z)%:R / Num.sqrt S); first by rewrite divr_gt0 // sqrtr_gt0 ltr0n.
  by apply: eq_map => x /=; rewrite -/S [x / _]mulrC -mulrA [x * _]mulrC mulrCA mulrA.
rewrite big_map /sphere_col -/S.
under eq_bigr do rewrite !exprMn exprVn sqr_sqrtr 1?ltW // sqr_sqrtr ?ler0n //.
by rewrite -!mulr_suml -/S divff ?mul1r // gt_eqF.
Qed.

Lemma on_sphereP n k l (xs : seq F) : on_sphere n [seq sphere_col c | c <- laid 0 l n k xs] (laid 0 l n k xs).
Proof.
split=> [|c]; first by rewrite size_map.
move=> hc hz; rewrite (nth_map [::]) //; have [h1 h2] := sphere_colE hz; split=> //; rewrite h1.
by move: hc; rewrite size_map size_iota => hc; rewrite (nth_map 0%N) ?size_iota // size_map size_iota.
Qed.

Theorem C69_sphere g :
  let D m := draws gauss m g in
  [/\ forall n k, exists cs, icall (SizePair n k) (nm "sphere"%string) OutNone g = Ok (RArray G cs, (D (n * k)%N).2) /\
        on_sphere n cs (laid 0 FOrder n k (D (n * k)%N).1),
      forall n, exists cs, icall (SizeInt n) (nm "sphere"%string) OutNone g = Ok (RArray G cs, (D (n * 1)%N).2) /\
        on_sphere n cs (laid 0 FOrder n 1%N (D (n * 1)%N).1),
      forall sz l t n k, l <> Strided -> t <> OOther -> exists cs,
        icall sz (nm "sphere"%string) (OutArray l t n k) g = Ok (RFilled G cs, (D (n * k)%N).2) /\
        on_sphere n cs (laid 0 l n k (D (n * k)%N).1) &
      exists f, icall SizeNone (nm "sphere"%string) OutNone g = Ok (RSampler f, g) /\
        forall n k g1, (f n k g1).2 = (draws gauss (n * k) g1).2 /\
          on_sphere n (f n k g1).1 (laid 0 FOrder n k (draws gauss (n * k) g1).1)].
Proof.
move=> D; have fc n k g1 : iso_fill Sphere n k g1 =
    ([seq sphere_col c | c <- laid 0 FOrder n k (draws gauss (n * k) g1).1], (draws gauss (n * k) g1).2).
  by rewrite /= (fill_colsE 0).
have hl : lookup "sphere"%string ISO_DISTRIBUTIONS = Some Sphere by [].
rewrite /isotropic_call hl; split.
- by move=> n k; rewrite fc; eexists; split; [reflexivity|exact: on_sphereP].
- by move=> n; rewrite fc; eexists; split; [reflexivity|exact: on_sphereP].
- by move=> sz [] [] n k // _ _; rewrite ?fc /= ?fill_rowsE; eexists; (split; [reflexivity|exact: on_sphereP]).
- by exists (iso_fill Sphere); split=> // n k g1; rewrite fc; split=> //; exact: on_sphereP.
Qed.

(* ---- C82 ------------------------------------------------------------------------------ *)
(* a Fortran-ordered float64 array receives what the call without `out` returns *)
Theorem C82_fortran s d sz n k g : lookup s ISO_DISTRIBUTIONS = Some d ->
  exists cs g', icall (SizePair n k) (nm s) OutNone g = Ok (RArray G cs, g') /\
    icall sz (nm s) (OutArray FOrder OF64 n k) g = Ok (RFilled G cs, g') /\
    size cs = k /\ forall c, (c < k)%N -> size (nth [::] cs c) = n.
Proof.
move=> hs; have [z1 z2] := iso_fill_sizes unif gauss d n k g.
exists (iso_fill d n k g).1, (iso_fill d n k g).2; rewrite /isotropic_call hs.
have -> : out_checks d FOrder OF64 = None by case: (d).
by case: (iso_fill d n k g) z1 z2.
Qed.

(* normal probes are the draws themselves *)
Theorem C82_normal s g : s = "normal"%string \/ s = "gaussian"%string ->
  (forall n k, icall (SizePair n k) (nm s) OutNone g =
     Ok (RArray G (laid 0 FOrder n k (draws gauss (n * k) g).1), (draws gauss (n * k) g).2)) /\
  (forall sz l t n k, l <> Strided -> t <> OOther -> icall sz (nm s) (OutArray l t n k) g =
     Ok (RFilled G (laid 0 l n k (draws gauss (n * k) g).1), (draws gauss (n * k) g).2)).
Proof.
move=> hs; have hl : lookup s ISO_DISTRIBUTIONS = Some Normal by case: hs => ->.
rewrite /isotropic_call hl; split=> [n k|sz [] [] n k] //=; by rewrite ?fill_rowsE ?(fill_colsE 0).
Qed.

(* a C-ordered array receives the draws row by row: entry (r, c) of an n x k
   array is entry (c, r) of the k x n array the call would return *)
Theorem C82_c_order s d sz n k g : lookup s ISO_DISTRIBUTIONS = Some d -> d <> Sphere ->
  exists cs ct g', icall sz (nm s) (OutArray COrder OF64 n k) g = Ok (RFilled G cs, g') /\
    icall (SizePair k n) (nm s) OutNone g = Ok (RArray G ct, g') /\
    forall r c, (r < n)%N -> (c < k)%N -> nth 0 (nth [::] cs c) r = nth 0 (nth [::] ct r) c.
Proof.
move=> hs dS; rewrite /isotropic_call hs.
have -> : out_checks d COrder OF64 = None by case: (d).
case: d hs dS => //= _ _; rewrite !fill_rowsE !(fill_colsE 0) [(k * n)%N]mulnC; do 3!eexists; do 2!split=> //.
  move=> r c hr hc; rewrite /laid -!map_comp !(nth_map 0%N) ?size_iota // !nth_iota //=.
  by rewrite -!map_comp !(nth_map 0%N) ?size_iota // !nth_iota //= !add0n.
move=> r c hr hc; rewrite /laid !(nth_map 0%N) ?size_iota // !nth_iota //=.
Qed.

(* what is rejected *)
Theorem C82_errors sz p out g : match icall sz p out g with
  | Ok (ret, _) => exists s d, [/\ p = nm s, lookup s ISO_DISTRIBUTIONS = Some d &
      match out, ret with
      | OutNone, RSampler _ => sz = SizeNone
      | OutNone, RArray _ => sz <> SizeNone
      | OutArray l t _ _, RFilled _ => [/\ l <> Strided, t <> OOther & (d = Rademacher -> t = OF64)]
      | _, _ => False
      end]
  | Err AssertionError => (forall s, p = nm s -> lookup s ISO_DISTRIBUTIONS = None) \/ out = OutNotArray
  | Err ValueError => exists t n k, out = OutArray Strided t n k
  | Err TypeError => exists l t n k, [/\ out = OutArray l t n k, l <> Strided & t <> OF64]
  | Err _ => False
  end.
Proof.
case: p => [s|f]; rewrite /isotropic_call; last by left.
case hs: (lookup s ISO_DISTRIBUTIONS) => [d|]; last by left=> s' [<-].
case: out => [||l t n k].
- case: sz => [|n|n k]; first by exists s, d.
  + by case: (iso_fill d n 1 g) => cs g'; exists s, d.
  + by case: (iso_fill d n k g) => cs g'; exists s, d.
- by right.
- case E: (out_checks d l t) => [e|]; last first.
    have H : [/\ l <> Strided, t <> OOther & d = Rademacher -> t = OF64] by move: E; case: l; case: t; case: (d).
    by case: (if l is COrder then _ else _) => cs g'; exists s, d.
  have [[-> e2]|[e1 e2 e3]] : (e = ValueError /\ l = Strided) \/ [/\ e = TypeError, l <> Strided & t <> OF64].
    by move: E; case: l; case: t; case: (d) => //= -[<-]; (by left) || (by right).
  + by rewrite e2; exists t, n, k.
  + by rewrite e1; exists l, t, n, k.
Qed.

(* ---- C80 ------------------------------------------------------------------------------ *)
Section Callers.
Variables (tppf : F -> nat -> F) (zq : F -> F).
Variable N : nat.

(* hutch takes a callable as its signature says: every run with a counting
   criterion uses the callable's columns *)
Theorem C80_hutch_callable (f : nat -> nat -> G -> seq (seq F) * G) :
  (forall k g, size (f N k g).1 = k) ->
  exists sample, hutch_pdf unif gauss N (PCall f) = Ok sample /\
  (forall b g, sample b g = ([seq \col_i c`_i | c <- (f N b g).1], (f N b g).2)) /\
  forall fuel A batch n r full cb g, (0 < N)%N -> 0 < batch -> (nbatch n (eff full cb batch) < fuel)%N -> 0 < n ->
  exists out, ModelTrace.hutch tppf zq fuel A batch sample (CCount F n) r full cb g = Some (Ok out) /\
    run_probes out = flatten (batches sample (eff full cb batch) (nbatch n (eff full cb batch)) g) /\
    ret_value (run_ret out) = PFloat (Fin (avg [seq qf A v | v <- run_probes out])).
Proof.
move=> hf; exists (mk_sampler N f); split=> //; split.
  by move=> b g; rewrite /mk_sampler; case: (f N b g).
move=> fuel A batch n r full cb g N0 b0 hfu n0.
have ok : sample_ok (mk_sampler N f).
  by move=> b g1; rewrite /mk_sampler; have := hf b g1; case: (f N b g1) => cs g2 /= <-; rewrite size_map.
have [out [h1 [h2 _ h3]]] := @count_value F G tppf zq N fuel A batch _ n r full cb g ok N0 b0 hfu n0.
by exists out.
Qed.

(* hutchpp and diag advertise callables but reject every one of them, even on an empty matrix *)
Theorem C80_callables_refuted (f : nat -> nat -> G -> seq (seq F) * G) :
  (forall qrQ A m mode full g, @hutchpp F G unif gauss N qrQ A m mode (PCall f) full g = Err AssertionError) /\
  diag_pdf unif gauss N (PCall f) = Err AssertionError.
Proof. by []. Qed.

(* names: all five entry points accept exactly the five names *)
Definition known (s : string) : bool :=
  has (fun t => (s =? t)%string) [:: "rademacher"; "normal"; "sphere"; "signs"; "gaussian"]%string.

Lemma lookup_known s : if known s then exists d, lookup s ISO_DISTRIBUTIONS = Some d else lookup s ISO_DISTRIBUTIONS = None.
Proof.
rewrite /known /=; case: (s =? "rademacher")%string; first by exists Rademacher.
case: (s =? "normal")%string; first by exists Normal.
case: (s =? "sphere")%string; first by exists Sphere.
case: (s =? "signs")%string; first by exists Rademacher.
by case: (s =? "gaussian")%string; first by exists Normal.
Qed.

Theorem C80_names s :
  [/\ is_ok (hutch_pdf unif gauss N (nm s)) = known s,
      is_ok (diag_pdf unif gauss N (nm s)) = known s,
      forall qrQ A m mode full g, if known s then 1 <= m -> is_ok (@hutchpp F G unif gauss N qrQ A (Some m) mode (nm s) full g)
        else hutchpp unif gauss qrQ A (Some m) mode (nm s) full g = Err AssertionError,
      forall qr A m g, @xdiag F G unif gauss N qr A m (nm s) g = Err AssertionError <-> ~~ known s &
      forall qri fuel A batch c kw record full cb g, ~~ known s ->
        match @ModelXtrace.xtrace F G unif gauss tppf zq N qri fuel A batch (nm s) c kw record full cb g with
        | Some (Err _) => True | _ => False end].
Proof.
have := lookup_known s; case: ifP => [K [d hd]|K hd]; split.
- by rewrite /hutch_pdf /isotropic hd.
- by rewrite /diag_pdf /isotropic hd.
- move=> qrQ A m mode full g m1; rewrite /hutchpp /isotropic hd /= /hutchpp_run; case: ifP => // N0.
  have nb : 1 <= hpp_nb N (Some m) by rewrite /hpp_nb (le_trans m1) // ler_addl modz_ge0.
  rewrite ltNge (le_trans _ nb) //=; case: (mk_sampler _ _ _ _) => ws g1; case: (mk_sampler _ _ _ _) => gs g2.
  case: eqP => // e; move: nb; have [->//] : hpp_nb N (Some m) = 0 by apply/eqP; rewrite -absz_eq0 e.
- move=> qr A m g; rewrite /xdiag /isotropic hd /= /xdiag_run; case: ifP => // _.
  by case: (mk_sampler _ _ _ _) => vs g1; case: (qr _ _) => Q R; case: ifP.
- by [].
- by rewrite /hutch_pdf /isotropic hd.
- by rewrite /diag_pdf /isotropic hd.
- by move=> qrQ A m mode full g; rewrite /hutchpp /isotropic hd.
- by move=> qr A m g; rewrite /xdiag /isotropic hd.
- move=> qri fuel A batch c kw record full cb g _; rewrite /ModelXtrace.xtrace /hutch_pdf /isotropic hd /=.
  by case: ifP => // _; case: (xtrace_criterion _ _ _).
Qed.
End Callers.
End P.

(* ---- concrete cases -------------------------------------------------------------------- *)
Section E.
Variable F : rcfType.
(* draws 1/4, 3/4, 1/4, ... and 1, 2, 3, ... *)
Definition r_unif (g : nat) : rat * nat := (if odd g then 3%:R / 4%:R else 1 / 4%:R, g.+1).
Definition r_gauss (g : nat) : F * nat := (g.+1%:R, g.+1).

Lemma r_unifP g : 0 <= (r_unif g).1 < 1. Proof. by rewrite /r_unif /=; case: ifP. Qed.

Example C68_ex : isotropic_call r_unif r_gauss (SizePair 2 2) (PName F nat "signs"%string) OutNone 0%N =
  Ok (RArray nat [:: [:: -1; 1]; [:: -1; 1]], 4%N).
Proof.
have [-> _ _ _] := C68_signs r_gauss r_unifP 0%N (or_intror erefl : "signs"%string = "rademacher"%string \/ _).
by [].
Qed.

Example C68_exact_ex (rnd : rat -> rat) : (forall x, bits 53 x -> rnd x = x) ->
  rademacher_rounded rnd (5%:R / 2%:R ^+ 53) = -1.
Proof.
move=> h; have h53 : (10 < 2 ^ 53)%N by apply: (@ltn_trans (2 ^ 4)) => //; rewrite ltn_exp2l.
by rewrite (C68_exact h) // ?h53 //; apply: ltn_trans h53.
Qed.

(* the same seed, a C-ordered `out` of the default layout: another array *)
Theorem C82_same_array_refuted : exists (G : Type) (unif : G -> rat * G) (gauss : G -> F * G) g c1 c2 g',
  [/\ forall g, 0 <= (unif g).1 < 1,
      isotropic_call unif gauss (SizePair 2 2) (PName F G "rademacher"%string) OutNone g = Ok (RArray G c1, g'),
      isotropic_call unif gauss SizeNone (PName F G "rademacher"%string) (OutArray COrder OF64 2 2) g = Ok (RFilled G c2, g') &
      c1 <> c2].
Proof.
exists nat, r_unif, r_gauss, 0%N, [:: [:: -1; 1]; [:: -1; 1]], [:: [:: -1; -1]; [:: 1; 1]], 4%N.
have hs : "rademacher"%string = "rademacher"%string \/ "rademacher"%string = "signs"%string by left.
have [h1 _ h2 _] := C68_signs r_gauss r_unifP 0%N hs.
split; [exact: r_unifP|by rewrite h1|by rewrite h2|].
by case=> /eqP; rewrite -subr_eq0 opprK (_ : 1 + 1 = 2%:R) // pnatr_eq0.
Qed.

Example C69_ex : exists cs, isotropic_call r_unif r_gauss (SizePair 2 2) (PName F nat "sphere"%string) OutNone 0%N =
  Ok (RArray nat cs, 4%N) /\
  \sum_(x <- nth [::] cs 1) x ^+ 2 = 2%:R /\ exists2 a : F, 0 < a & nth [::] cs 1 = [:: a * 3%:R; a * 4%:R].
Proof.
have [h _ _ _] := C69_sphere r_unif r_gauss 0%N; have [cs [-> [_ h2]]] := h 2%N 2%N; exists cs; split=> //.
by apply: (h2 1%N) => //=; rewrite pnatr_eq0.
Qed.

Example C82_ex : lookup "normal"%string ISO_DISTRIBUTIONS = Some Normal /\ Normal <> Sphere. Proof. by []. Qed.

Example C80_ex : known "signs"%string /\ ~~ known "uniform"%string /\
  forall k g, size ((fun (n k g : nat) => (nseq k (nseq n (1 : F)), g)) 3%N k g).1 = k.
Proof. by do 2!split=> //; move=> k g; rewrite size_nseq. Qed.
End E.

Print Assumptions C68_signs.
Print Assumptions C68_exact.
Print Assumptions C69_sphere.
Print Assumptions C80_hutch_callable.
Print Assumptions C80_callables_refuted.
Print Assumptions C80_names.
Print Assumptions C82_fortran.
Print Assumptions C82_normal.
Print Assumptions C82_c_order.
Print Assumptions C82_errors.
Print Assumptions C82_same_array_refuted.
