(* Objects of ModelFunArray seen row by row as objects of ModelOperators. *)
From Coq Require Import String.
From mathcomp Require Import all_ssreflect all_algebra zify ring.
From Verif Require Import Base ModelXtrace LemXtrace ModelTyping ModelLanczos LemLanczos SpecLanczos LemLanczos2 LemLanczos3 LemLanczos4
  ModelTqli ModelQuadrature ModelSpecial ModelOperators SpecTridiag SpecQuad SpecOperators LemSpectral LemQuad PropQuad
  PropOperators LemOperators LemOperators2 ModelFunArray.
Set Implicit Arguments.
Unset Strict Implicit.
Unset Printing Implicit Defensive.
Import Order.TTheory GRing.Theory Num.Theory.
Local Open Scope string_scope.
Local Open Scope ring_scope.

Section L.
Variable F : rcfType.
Variable eps : F.
Variable lv : seq F -> seq F -> res (seq F).
Variable lp : seq F -> seq F -> res (seq F * seq (seq F)).
Variables (n : nat) (A : 'M[F]_n) (kd : okind) (dA : dty).
Implicit Types (Mb : mfobj F) (M : amf F) (x : seq F) (f : afun F).
Local Notation mf_lanczos := (mf_lanczos eps A kd dA).
Local Notation mf__matvec := (mf__matvec eps lv lp A kd dA).
Local Notation mf_matvec := (mf_matvec eps lv lp A kd dA).
Local Notation mf_quad1 := (mf_quad1 eps lv lp A kd dA).
Local Notation mf_quad := (mf_quad eps lv lp A kd dA).
Local Notation a__matvec := (a__matvec eps lv lp A kd dA).
Local Notation a_matvec := (a_matvec eps lv lp A kd dA).
Local Notation a_quad1 := (a_quad1 eps lv lp A kd dA).
Local Notation a_quad := (a_quad eps lv lp A kd dA).
Local Notation a_run := (a_run eps lv lp A kd dA).

Definition with_fun Mb (g : mfun F) : mfobj F :=
  MF (mf_n Mb) g (mf_deg Mb) (mf_orth Mb) (mf_dt Mb) (mf_mv Mb) (mf_alpha Mb) (mf_beta Mb) (mf_nodes Mb) (mf_weights Mb) (mf_Q Mb).

(* the q-th row of the function's result as a function of its own *)
Definition row_fun f q : mfun F := fun xs => FVec true (nth [::] (a_rows (f xs)).2 q).
(* f returns p rows of one length *)
Definition has_rows f p : Prop :=
  forall xs, size (a_rows (f xs)).2 = p /\ all (fun v => size v == (a_rows (f xs)).1) (a_rows (f xs)).2.
Definition view M q : mfobj F := with_fun (a_obj M) (row_fun (a_fun M) q).

Lemma lanczos_fun Mb g x : mf_lanczos (with_fun Mb g) x = obnd (mf_lanczos Mb x) (fun Mb' => Ret (with_fun Mb' g)).
Proof.
rewrite /ModelOperators.mf_lanczos /=; case: (mf_resolve _ _ _) => //= bd; case: ifP => //= _.
by case: (lanczos_recurrence _ _ _ _ _ _ _ _ _ _) => //= st; case: (b_out bd).
Qed.

Lemma a_mulP c (rows : seq (seq (xnum F))) w q : all (fun v => size v == c) rows -> (q < size rows)%N ->
  match a_mul (c, rows) w with
  | Some (b, vs) => size vs = size rows /\ exists2 v, np_mul (nth [::] rows q) w = Some v & size v = b /\ nth [::] vs q = v
  | None => np_mul (nth [::] rows q) w = None
  end.
Proof.
move=> hc hq; have /eqP hs := all_nthP [::] hc q hq; rewrite /a_mul /=.
have E : np_mul (nth [::] rows q) w = if [|| c == size w, c == 1%N | size w == 1%N] then
    Some (odflt [::] (np_mul (nth [::] rows q) w)) else None.
  rewrite /np_mul hs; case: eqP => //= _; move: hs; case: (nth _ _ _) => [|a [|b r]] <- //=.
    by case: (w) => [|y [|z w']].
  by case: (w) => [|y [|z w']].
case: ifP E => // hcond -> ; split; first by rewrite size_map.
exists (odflt [::] (np_mul (nth [::] rows q) w)) => //; split; last by rewrite (nth_map [::]).
rewrite /np_mul hs; case: eqP => [h|hn] /=; first by rewrite size_map size_zip hs h minnn.
move: hcond; move/eqP: (hn) => /negbTE -> /=.
move: hs hn; case: (nth _ _ _) => [|a [|b r]] <- //=; last by case: (w) => [|y [|z w']] //=; rewrite size_map.
- by case: (w) => [|y [|z w']] //=.
- by rewrite size_map.
Qed.

Lemma a_mul_size a (w : seq (xnum F)) b vs : a_mul a w = Some (b, vs) -> size vs = size a.2.
Proof. by rewrite /a_mul; case: ifP => // _ [_ <-]; rewrite size_map. Qed.

(* ---- _matvec ------------------------------------------------------------------------- *)
Lemma matvec_rows M x p q : has_rows (a_fun M) p -> (q < p)%N ->
  a_obj (a__matvec M x).2 = with_fun (mf__matvec (view M q) x).2 (mf_fun (a_obj M)) /\
  a_fun (a__matvec M x).2 = a_fun M /\
  match (a__matvec M x).1 with
  | Ret cols => size cols = p /\ (mf__matvec (view M q) x).1 = Ret (nth [::] cols q)
  | Raise e => (mf__matvec (view M q) x).1 = Raise e
  | Undef => (mf__matvec (view M q) x).1 = Undef
  | NonFin => (mf__matvec (view M q) x).1 = NonFin
  end.
Proof.
move=> hp hq; rewrite /ModelFunArray.a__matvec /ModelOperators.mf__matvec.
have -> : zero_Q (view M q) = with_fun (zero_Q (a_obj M)) (row_fun (a_fun M) q) by [].
rewrite lanczos_fun; case E: (mf_lanczos (zero_Q (a_obj M)) x) => [||e|Mb] /=; try by split=> //; case: (a_obj M).
have EF : mf_fun Mb = mf_fun (a_obj M).
  by have [[[_ ->] _ _ _ _] _] := lanczos_keeps E.
split; first by rewrite -EF; case: (Mb).
split=> //; case: (eigh_tridiag _ _ _ _ _ _) => [[|w Y|]|e] //=.
have [h1 h2] := hp w; rewrite -h1 in hq *.
case: (a_rows (a_fun M w)) h2 hq => c rows /= h2 hq.
have := a_mulP [seq Fin y | y <- nth [::] Y 0] h2 hq.
case: (a_mul _ _) => [[b vs]|] /=; last by rewrite /fvals => ->.
case=> sv [v -> [<- hv]]; case: eqP => // _; split; first by rewrite size_map.
by rewrite (nth_map [::]) ?sv // hv.
Qed.

Lemma matvec_none M x : has_rows (a_fun M) 0 ->
  (exists cols, (a__matvec M x).1 = Ret cols) -> (a__matvec M x).1 = Ret [::].
Proof.
move=> h0 [cols]; rewrite /ModelFunArray.a__matvec; case: (mf_lanczos _ x) => [||e|Mb] //=.
case: (eigh_tridiag _ _ _ _ _ _) => [[v|w Y|]|e] //=.
have [/size0nil hs _] := h0 w; case E: (a_mul _ _) => [[b vs]|] //=.
have := a_mul_size E; rewrite hs => /size0nil ->.
by case: ifP.
Qed.

(* ---- quad ------------------------------------------------------------------------------ *)
Lemma quad1_rows M x : has_rows (a_fun M) 1 ->
  (a_quad1 M x).1 = (mf_quad1 (view M 0) x).1 /\
  view (a_quad1 M x).2 0 = (mf_quad1 (view M 0) x).2 /\ a_fun (a_quad1 M x).2 = a_fun M.
Proof.
move=> hp; rewrite /ModelFunArray.a_quad1 /ModelOperators.mf_quad1 lanczos_fun.
case: (mf_lanczos (a_obj M) x) => [||e|Mb] //=.
case: (quadrature _ _ _ _ _ _ _ _ _ _) => [||e|r] //=.
split=> //; set ns := odflt _ _; set ws := odflt _ _.
have [h1 h2] := hp ns; have hq : (0 < size (a_rows (a_fun M ns)).2)%N by rewrite h1.
case: (a_rows (a_fun M ns)) h1 h2 hq => c rows /= h1 h2 hq.
have := a_mulP ws h2 hq; case: (a_mul _ _) => [[b vs]|]; last by move=> ->.
by rewrite h1; case=> sv [v -> [_ hv]]; case: vs sv hv => [|v' []] //= _ ->.
Qed.

Lemma quad1_fails M x p y : has_rows (a_fun M) p -> p <> 1%N -> (a_quad1 M x).1 <> Ret y.
Proof.
move=> hp p1; rewrite /ModelFunArray.a_quad1; case: (mf_lanczos _ x) => [||e|Mb] //=.
case: (quadrature _ _ _ _ _ _ _ _ _ _) => [||e|r] //=; have [h1 _] := hp (odflt (mf_nodes Mb) (q_nodes r)).
case E: (a_mul _ _) => [[b vs]|] //; have := a_mul_size E; rewrite h1.
by case: (vs) => [|v [|v' vs']] //= hs; case: p1.
Qed.

(* ---- what no call changes ------------------------------------------------------------------- *)
Lemma a__matvec_keeps M x : keeps n (a_obj M) (a_obj (a__matvec M x).2) /\ a_fun (a__matvec M x).2 = a_fun M.
Proof.
rewrite /ModelFunArray.a__matvec; case E: (mf_lanczos (zero_Q (a_obj M)) x) => [||e|Mb] /=; split=> //; try exact: zero_keeps.
by apply: keeps_trans (zero_keeps _ _) _; exact: lanczos_keeps E.
Qed.

Lemma a_quad1_keeps M x : keeps n (a_obj M) (a_obj (a_quad1 M x).2) /\ a_fun (a_quad1 M x).2 = a_fun M.
Proof.
rewrite /ModelFunArray.a_quad1; case E: (mf_lanczos (a_obj M) x) => [||e|Mb] //=.
have K := lanczos_keeps E.
case Eq: (quadrature _ _ _ _ _ _ _ _ _ _) => [||e|r] //=; split=> //; apply: keeps_trans K _.
have [a [b [-> -> s1 s2]]] := quadrature_sizes Eq; split=> //.
by case=> *; split=> //=; rewrite ?s1 ?s2.
Qed.

Lemma a_quad_keeps X : forall M, keeps n (a_obj M) (a_obj (a_quad M X).2) /\ a_fun (a_quad M X).2 = a_fun M.
Proof.
elim: X => [//|x X IH] M /=; have := a_quad1_keeps M x; case: (a_quad1 M x) => r M1 /= [k1 f1].
by case: r => //= y; have := IH M1; case: (a_quad M1 X) => r M2 /= [k2 f2]; split; [apply: keeps_trans k2 | rewrite f2].
Qed.
End L.

Section R.
Variable F : rcfType.
Variable eps : F.
Hypothesis eps0 : 0 <= eps.
Variable lv : seq F -> seq F -> res (seq F).
Variable lp : seq F -> seq F -> res (seq F * seq (seq F)).
Hypothesis lapack : lapack_ok lv lp.
Variables (n : nat) (A : 'M[F]_n).
Hypothesis n0 : (0 < n)%N.
Hypothesis sA : A^T = A.
Variables (kd : okind) (dA : dty).
Implicit Types (Mb : mfobj F) (M : amf F) (x : seq F) (f : afun F).
Local Notation a__matvec := (a__matvec eps lv lp A kd dA).
Local Notation a_quad1 := (a_quad1 eps lv lp A kd dA).
Local Notation a_quad := (a_quad eps lv lp A kd dA).
Local Notation tol := (Num.sqrt n%:R * mf_rtol F).
Local Notation q0 x := (start (cvec n x)).

Definition a_value f Mb x w (Y : seq (seq F)) : outcome (seq (seq (xnum F))) :=
  match a_mul (a_rows (f w)) [seq Fin y | y <- nth [::] Y 0] with
  | Some (b, vs) => if b == mf_deg Mb then Ret [seq qyv n (mf_deg Mb) (vnorm (cvec n x)) (mf_Q Mb) Y v | v <- vs] else Raise ValueError
  | None => Raise ValueError
  end.

Lemma a__matvec_run M x s : mf_wf n (a_obj M) -> mf_live kd (a_obj M) -> size x = n ->
  stop_at A (q0 x) tol (mf_deg (a_obj M)) s ->
  exists w Y, let Mb := mf_after A (zero_Q (a_obj M)) x s in
    eig_of lp Mb w Y /\ a__matvec M x = (a_value (a_fun M) Mb x w Y, AMF Mb (a_fun M)).
Proof.
move=> W L sx hs; have W0 := zero_wf W; have W' := after_wf A x s W0.
rewrite /ModelFunArray.a__matvec (mf_lanczos_run eps0 n0 sA dA W0 L (zero_clean _) sx hs).
set M' := mf_after _ _ _ _ in W' *; have /andP[d0 dn] := wf_deg W'.
have sz : size (take (mf_deg M') (mf_alpha M')) = (size (behead (take (mf_deg M') (mf_beta M')))).+1.
  by rewrite size_behead !size_takel ?(wf_al W') ?(wf_be W') // prednK.
have [w [Y [e1 e2 eig]]] := eigh_short lapack 30 sz.
exists w, Y; split; last by cbv zeta; rewrite drop1_behead e2 /a_value (sqnorm_vnorm sx).
split=> //; rewrite (mfTE eps0 n0 W').
have E : tri_of (take (mf_deg M') (mf_alpha M')) (behead (take (mf_deg M') (mf_beta M'))) =
   jacobi (size (take (mf_deg M') (mf_alpha M'))) (nth 0 (take (mf_deg M') (mf_alpha M'))) (nth 0 (take (mf_deg M') (mf_beta M'))).
  by apply: jacobi_ext => // i /andP[i0 _]; case: i i0 => // i _; rewrite /= nth_behead.
by rewrite E size_takel ?(wf_al W') // in eig.
Qed.

Definition aq_value f x w (y : seq F) : outcome (xnum F) :=
  match a_mul (a_rows (f w)) [seq Fin (a ^+ 2) | a <- y] with
  | Some (_, [:: v]) => Ret (xmul (xsum v) (Fin (vnorm (cvec n x) ^+ 2)))
  | _ => Raise ValueError
  end.

Lemma a_quad1_run M x s : mf_wf n (a_obj M) -> mf_live kd (a_obj M) -> mf_clean (a_obj M) -> size x = n ->
  stop_at A (q0 x) tol (mf_deg (a_obj M)) s ->
  exists w Y Mb, eig_of lp (mf_after A (a_obj M) x s) w Y /\
    a_quad1 M x = (aq_value (a_fun M) x w (nth [::] Y 0), AMF Mb (a_fun M)).
Proof.
move=> W L C sx hs; have W' := after_wf A x s W.
have b0 : (mf_beta (mf_after A (a_obj M) x s))`_0 = 0 by rewrite (@after_be _ _ _ _ _ _ W hs).
rewrite /ModelFunArray.a_quad1 (mf_lanczos_run eps0 n0 sA dA W L C sx hs).
set M' := mf_after _ _ _ _ in W' b0 *; have /andP[d0 dn] := wf_deg W'.
have FE : full (mf_alpha M') (mf_beta M') = mf_beta M'.
  rewrite /full (wf_al W') (wf_be W'); case: eqP => //; lia.
have G : good (mf_alpha M') (mf_beta M').
  by rewrite /good FE (wf_al W') (wf_be W') b0 normr0 mul0r ler01.
have [w [Y [e1 e2 e3 e4 eig]]] := @eigh_full F lv lp lapack (take (mf_deg M') (mf_alpha M')) (take (mf_deg M') (mf_beta M')) "auto" 30
  (or_introl erefl) ltac:(by rewrite !size_takel ?(wf_al W') ?(wf_be W')) ltac:(by rewrite size_takel ?(wf_al W')).
rewrite size_takel ?(wf_al W') // in eig.
have [sw sY aY _ _] := eig.
have [y0 [Y0 EY]] : exists y0 Y0, Y = y0 :: Y0 by case: (Y) sY d0 => [<-|y0 Y0] // _ _; exists y0, Y0.
have sy0 : size y0 = mf_deg M' by move: aY; rewrite EY /= => /andP[/eqP].
have dE : Num.min (mf_deg M')%:Z (size (mf_alpha M'))%:Z = (mf_deg M')%:Z :> int by rewrite (wf_al W') /=; lia.
exists w, Y; eexists; split; first by split=> //; rewrite (mfTE eps0 n0 W').
rewrite (quadE _ _ _ _ _ _ _ _ G) /= dE FE /quad_rule /= !slice_nat e3 EY /=.
rewrite (wf_ns W') (wf_ws W') eqxx /= /copyto sw (wf_ns W') eqxx size_map sy0 (wf_ws W') eqxx /=.
by rewrite /aq_value (sqnorm_vnorm sx).
Qed.
End R.
