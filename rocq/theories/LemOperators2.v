(* Calls on a MatrixFunction object: what they compute, and what they leave
   behind. *)
From Coq Require Import String.
From mathcomp Require Import all_ssreflect all_algebra zify ring.
From Verif Require Import Base ModelXtrace LemXtrace ModelTyping ModelLanczos LemLanczos SpecLanczos LemLanczos2 LemLanczos3 LemLanczos4
  ModelTqli ModelQuadrature ModelSpecial ModelOperators SpecTridiag SpecQuad SpecOperators LemSpectral LemQuad PropQuad LemOperators.
Set Implicit Arguments.
Unset Strict Implicit.
Unset Printing Implicit Defensive.
Import Order.TTheory GRing.Theory Num.Theory.
Local Open Scope string_scope.
Local Open Scope ring_scope.

Section L.
Variable F : rcfType.

(* ---- the kernel keeps the sizes of its buffers --------------------------------------- *)
Ltac ob E := match goal with |- obind _ ?m = Some _ -> _ => case E: m => [?|]; last by []; cbn [obind oapp] end.

Lemma wr_size (b : seq F) i x b' : wr b i x = Some b' -> size b' = size b.
Proof. by rewrite /wr; case: ifP => // h [<-]; rewrite size_set_nth; lia. Qed.
Lemma wrv_size (b : seq F) o x b' : wrv b o x = Some b' -> size b' = size b.
Proof. by rewrite /wrv; case: ifP => // h [<-]; rewrite !size_cat size_drop size_takel; lia. Qed.
Lemma wcol_size n (b : seq F) c x b' : wcol n b c x = Some b' -> size b' = size b.
Proof. by rewrite /wcol; case: ifP => // _ /wrv_size. Qed.

Definition ksame (s s' : kst F) : Prop :=
  [/\ size (k_alpha s') = size (k_alpha s), size (k_beta s') = size (k_beta s) & size (k_V s') = size (k_V s)].

Lemma kstep_size (eps : F) n m (A : 'M[F]_(n, m)) tol deg orth ncv j p c nx st st' :
  kstep eps A tol deg orth ncv j p c nx st = Some st' -> ksame st st'.1.
Proof.
case: st => q al be V; rewrite /kstep /=.
do 8 (let E := fresh in ob E); ob s1; do 2 (let E := fresh in ob E); ob s2; let E := fresh in ob E.
have {s1}s1 := wr_size s1; have {s2}s2 := wr_size s2.
case: ifP => _; first by case=> <-.
by ob s3; have {s3}s3 := wcol_size s3; case=> <-.
Qed.

Lemma kloop_size (eps : F) n m (A : 'M[F]_(n, m)) tol deg orth ncv r : forall j p c nx st st',
  kloop eps A tol deg orth ncv r j p c nx st = Some st' -> ksame st st'.
Proof.
elim: r => [|r IH] j p c nx st st' /=; first by case=> <-.
case E: (kstep _ _ _ _ _ _ _ _ _ _ _) => [[s b]|] //=; have /= h := kstep_size E; case: b E => _ /=; first by case=> <-.
by case/IH=> e1 e2 e3; case: h => *; split; congruence.
Qed.

Lemma kernel_size (eps : F) n m (A : 'M[F]_(n, m)) q deg rtol orth alpha beta V ncv st :
  lanczos_recurrence eps A q deg rtol orth alpha beta V ncv = Some st ->
  [/\ size (k_alpha st) = size alpha, size (k_beta st) = size beta & size (k_V st) = size V].
Proof.
rewrite /lanczos_recurrence /=; ob s1; ob s0; ob s2; ob s3.
by case/kloop_size=> /= -> -> ->; rewrite (wr_size s3) (wcol_size s2) (wcol_size s1).
Qed.

(* ---- the tridiagonal eigensolver on off-diagonals without the leading zero ------------ *)
Section LP.
Variable lv : seq F -> seq F -> res (seq F).
Variable lp : seq F -> seq F -> res (seq F * seq (seq F)).
Hypothesis lapack : lapack_ok lv lp.

Lemma eigh_short d e mi : size d = (size e).+1 ->
  exists w Y, [/\ lp d e = Ok (w, Y), eigh_tridiag lv lp d e "auto" mi = Ok (EPairs w Y) & is_eigh (tri_of d e) w Y].
Proof.
move=> sz; have [w [Y [h1 h2 h3]]] := lapack sz; exists w, Y; split=> //.
rewrite /eigh_tridiag /tridiag_front sz eqxx /= /eigh_internal /= /eigh_mrrr.
by rewrite h1.
Qed.

Section A.
Variable eps : F.
Hypothesis eps0 : 0 <= eps.
Variable n : nat.
Hypothesis n0 : (0 < n)%N.
Variable A : 'M[F]_n.
Hypothesis sA : A^T = A.
Variables (kd : okind) (dA : dty).
Implicit Types (M : mfobj F) (x : seq F).
Local Notation tol := (Num.sqrt n%:R * mf_rtol F).
Local Notation q0 x := (start (cvec n x)).
Local Notation mf_quad1 := (mf_quad1 eps lv lp A kd dA).
Local Notation mf_quad := (mf_quad eps lv lp A kd dA).
Local Notation mf_matvec := (mf_matvec eps lv lp A kd dA).
Local Notation mf__matvec := (mf__matvec eps lv lp A kd dA).
Local Notation mf_lanczos := (mf_lanczos eps A kd dA).
Local Notation mf_after := (mf_after A).
Local Notation mf_wf := (mf_wf n).

(* what no call changes *)
Definition same_params M M' : Prop :=
  [/\ mf_n M' = mf_n M /\ mf_fun M' = mf_fun M, mf_deg M' = mf_deg M, mf_orth M' = mf_orth M, mf_dt M' = mf_dt M & mf_mv M' = mf_mv M].

Lemma same_refl M : same_params M M. Proof. by []. Qed.
Lemma same_trans M1 M2 M3 : same_params M1 M2 -> same_params M2 M3 -> same_params M1 M3.
Proof. by case=> -[a1 a2] a3 a4 a5 a6 [[b1 b2] b3 b4 b5 b6]; split; [split|..]; congruence. Qed.

Definition keeps M M' : Prop := same_params M M' /\ (mf_wf M -> mf_wf M').
Lemma keeps_refl M : keeps M M. Proof. by []. Qed.
Lemma keeps_trans M1 M2 M3 : keeps M1 M2 -> keeps M2 M3 -> keeps M1 M3.
Proof. by case=> a b [c d]; split; [exact: same_trans a c|move=> /b /d]. Qed.

Lemma zero_keeps M : keeps M (zero_Q M).
Proof. by split=> //; exact: zero_wf. Qed.

Lemma lanczos_keeps M x M' : mf_lanczos M x = Ret M' -> keeps M M'.
Proof.
rewrite /ModelOperators.mf_lanczos; case: (mf_resolve _ _ _) => // bd; case: ifP => // _.
case E: (lanczos_recurrence _ _ _ _ _ _ _ _ _ _) => [st|] // [<-].
have [s1 s2 s3] := kernel_size E; case: (b_out bd) => //; split=> //.
by case=> *; split=> //=; rewrite ?s1 ?s2 ?s3.
Qed.

Lemma copyto_size T (a b c : seq T) : copyto a b = Some c -> size c = size a.
Proof.
rewrite /copyto; case: eqP => [h [<-] //|_].
by case: b => [|y [|? ?]] // [<-]; rewrite size_nseq.
Qed.

Lemma quadrature_sizes d e deg q ns ws m mi r : quadrature lv lp d e deg q (Some ns) (Some ws) m mi = Ret r ->
  exists ns' ws', [/\ q_nodes r = Some ns', q_weights r = Some ws', size ns' = size ns & size ws' = size ws].
Proof.
rewrite /quadrature; case: ifP => // _; case: ifP => // _; case: ifP => // _.
case: (quad_rule _ _ _ _ _ _ _ _) => //= -[th ta]; case: ifP => // _.
case E1: (copyto ns th) => [a|] //; case E2: (copyto ws ta) => [b|] // [<-]; exists a, b.
by rewrite (copyto_size E1) (copyto_size E2).
Qed.

Lemma quad1_keeps M x : keeps M (mf_quad1 M x).2.
Proof.
rewrite /ModelOperators.mf_quad1; case E: (mf_lanczos M x) => [||e|M1] //.
apply: keeps_trans (lanczos_keeps E) _.
case Eq: (quadrature _ _ _ _ _ _ _ _ _ _) => [||e|r] //=.
have [a [b [-> -> s1 s2]]] := quadrature_sizes Eq; split=> //.
by case=> *; split=> //=; rewrite ?s1 ?s2.
Qed.

Lemma quad_keeps X : forall M, keeps M (mf_quad M X).2.
Proof.
elim: X => [//|x X IH] M /=; have := quad1_keeps M x; case: (mf_quad1 M x) => r M1 /= k1.
by case: r => //= y; have := IH M1; case: (mf_quad M1 X) => r M2 /= k2; apply: keeps_trans k2.
Qed.

Lemma matvec_keeps M x : keeps M (mf_matvec M x).2.
Proof.
rewrite /ModelOperators.mf_matvec; case: ifP => // _; rewrite /ModelOperators.mf__matvec.
case E: (mf_lanczos (zero_Q M) x) => [||e|M1]; try exact: zero_keeps.
by apply: keeps_trans (zero_keeps M) _; exact: lanczos_keeps E.
Qed.

Lemma call_keeps M c : keeps M (mf_call eps lv lp A kd dA M c).2.
Proof. by case: c => [x|X] /=; [apply: matvec_keeps|apply: quad_keeps]. Qed.

Lemma run_keeps h : forall M M', mf_run eps lv lp A kd dA M h = Some M' -> keeps M M'.
Proof.
elim: h => [|c h IH] M M' /=; first by case=> <-.
have := call_keeps M c; case: (mf_call _ _ _ _ _ _ _ _) => -[||e|ys] M1 //= k1 /IH; exact: keeps_trans.
Qed.

(* ---- what a call returns --------------------------------------------------------------- *)
Definition quad_value M x w (y : seq F) : outcome (xnum F) :=
  if np_mul (fvals (mf_fun M w)) [seq Fin (a ^+ 2) | a <- y] is Some v
  then Ret (xmul (xsum v) (Fin (vnorm (cvec n x) ^+ 2))) else Raise ValueError.

Definition eig_of M w Y : Prop :=
  lp (take (mf_deg M) (mf_alpha M)) (behead (take (mf_deg M) (mf_beta M))) = Ok (w, Y) /\ is_eigh (mfT M) w Y.

Lemma drop1_behead T (s : seq T) : drop 1 s = behead s. Proof. by case: s => //= a s; rewrite drop0. Qed.

Lemma mfTE M : mf_wf M -> mfT M = jacobi (mf_deg M) (nth 0 (take (mf_deg M) (mf_alpha M))) (nth 0 (take (mf_deg M) (mf_beta M))).
Proof. by move=> W; apply: jacobi_ext => i hi; rewrite nth_take //; lia. Qed.

Lemma sqnorm_vnorm x : size x = n -> Num.sqrt (sqnorm x) = vnorm (cvec n x).
Proof. by move=> sx; rewrite vnormE -(cvecK sx) sqnorm_cseq cvecK. Qed.

Lemma quad1_eval M M' x : mf_lanczos M x = Ret M' -> mf_wf M' -> (mf_beta M')`_0 = 0 -> size x = n ->
  exists w Y, eig_of M' w Y /\
    mf_quad1 M x = (quad_value M' x w (nth [::] Y 0),
      MF (mf_n M') (mf_fun M') (mf_deg M') (mf_orth M') (mf_dt M') (mf_mv M') (mf_alpha M') (mf_beta M') w
         [seq Fin (a ^+ 2) | a <- nth [::] Y 0] (mf_Q M')).
Proof.
move=> EL W' b0 sx; rewrite /ModelOperators.mf_quad1 EL; have /andP[d0 dn] := wf_deg W'.
have FE : full (mf_alpha M') (mf_beta M') = mf_beta M'.
  rewrite /full (wf_al W') (wf_be W'); case: eqP => //; lia.
have G : good (mf_alpha M') (mf_beta M').
  by rewrite /good FE (wf_al W') (wf_be W') b0 normr0 mul0r ler01.
have [w [Y [e1 e2 e3 e4 eig]]] := @eigh_full F lv lp lapack (take (mf_deg M') (mf_alpha M')) (take (mf_deg M') (mf_beta M')) "auto" 30
  (or_introl erefl) ltac:(by rewrite !size_takel ?(wf_al W') ?(wf_be W')) ltac:(by rewrite size_takel ?(wf_al W')).
rewrite size_takel ?(wf_al W') // in eig.
exists w, Y; split; first by split=> //; rewrite mfTE.
have [sw sY aY _ _] := eig.
have [y0 [Y0 EY]] : exists y0 Y0, Y = y0 :: Y0 by case: (Y) sY d0 => [<-|y0 Y0] // _ _; exists y0, Y0.
have sy0 : size y0 = mf_deg M' by move: aY; rewrite EY /= => /andP[/eqP].
have dE : Num.min (mf_deg M')%:Z (size (mf_alpha M'))%:Z = (mf_deg M')%:Z :> int by rewrite (wf_al W') /=; lia.
rewrite (quadE _ _ _ _ _ _ _ _ G) /= dE FE /quad_rule /= !slice_nat e3 EY /=.
rewrite (wf_ns W') (wf_ws W') eqxx /= /copyto sw (wf_ns W') eqxx size_map sy0 (wf_ws W') eqxx /=.
by rewrite /quad_value sqnorm_vnorm.
Qed.

Lemma quad1_run M x s : mf_wf M -> mf_live kd M -> mf_clean M -> size x = n -> stop_at A (q0 x) tol (mf_deg M) s ->
  exists w Y, let M' := mf_after M x s in
    eig_of M' w Y /\
    mf_quad1 M x = (quad_value M x w (nth [::] Y 0),
      MF (mf_n M) (mf_fun M) (mf_deg M) (mf_orth M) (mf_dt M) (mf_mv M) (mf_alpha M') (mf_beta M') w
         [seq Fin (a ^+ 2) | a <- nth [::] Y 0] (mf_Q M')).
Proof.
move=> W L C sx hs; have W' := after_wf A x s W.
have b0 : (mf_beta (mf_after M x s))`_0 = 0 by rewrite (@after_be _ _ _ _ _ _ W hs).
exact: (quad1_eval (mf_lanczos_run eps0 n0 sA dA W L C sx hs) W' b0 sx).
Qed.

Definition matvec_value M M' x w (Y : seq (seq F)) : outcome (seq (xnum F)) :=
  match np_mul (fvals (mf_fun M w)) [seq Fin y | y <- nth [::] Y 0] with
  | Some v => if size v == mf_deg M then Ret (qyv n (mf_deg M) (vnorm (cvec n x)) (mf_Q M') Y v) else Raise ValueError
  | None => Raise ValueError
  end.

Lemma matvec_eval M M' x : mf_lanczos (zero_Q M) x = Ret M' -> mf_wf M' -> mf_n M = n -> size x = n ->
  exists w Y, eig_of M' w Y /\ mf_matvec M x = (matvec_value M' M' x w Y, M').
Proof.
move=> EL W' nM sx; rewrite /ModelOperators.mf_matvec sx nM eqxx /= /ModelOperators.mf__matvec EL.
have /andP[d0 dn] := wf_deg W'.
have sz : size (take (mf_deg M') (mf_alpha M')) = (size (behead (take (mf_deg M') (mf_beta M')))).+1.
  by rewrite size_behead !size_takel ?(wf_al W') ?(wf_be W') // prednK.
have [w [Y [e1 e2 eig]]] := eigh_short 30 sz.
exists w, Y; split; last by rewrite /= drop1_behead e2 /matvec_value sqnorm_vnorm.
split=> //; rewrite mfTE //.
have E : tri_of (take (mf_deg M') (mf_alpha M')) (behead (take (mf_deg M') (mf_beta M'))) =
   jacobi (size (take (mf_deg M') (mf_alpha M'))) (nth 0 (take (mf_deg M') (mf_alpha M'))) (nth 0 (take (mf_deg M') (mf_beta M'))).
  by apply: jacobi_ext => // i /andP[i0 _]; case: i i0 => // i _; rewrite /= nth_behead.
by rewrite E size_takel ?(wf_al W') // in eig.
Qed.

Lemma matvec_run M x s : mf_wf M -> mf_live kd M -> size x = n -> stop_at A (q0 x) tol (mf_deg M) s ->
  exists w Y, let M' := mf_after (zero_Q M) x s in
    eig_of M' w Y /\ mf_matvec M x = (matvec_value M M' x w Y, M').
Proof.
move=> W L sx hs; have W0 := zero_wf W.
exact: (matvec_eval (mf_lanczos_run eps0 n0 sA dA W0 L (zero_clean M) sx hs) (after_wf A x s W0) (wf_n W) sx).
Qed.

(* ---- functions applied entry by entry ---------------------------------------------------- *)
Definition entrywise (f : mfun F) (g : F -> F) : Prop := forall xs, fvals (f xs) = [seq Fin (g t) | t <- xs].

Lemma xsum_map (s : seq F) : xsum [seq Fin z | z <- s] = Fin (\sum_(z <- s) z).
Proof. by elim: s => [|z s IH] /=; rewrite ?big_nil // big_cons /xsum /= -/(xsum _) IH. Qed.

Lemma zip_mul_fin (a b : seq F) : [seq xmul p.1 p.2 | p <- zip [seq Fin t | t <- a] [seq Fin t | t <- b]] =
  [seq Fin t | t <- [seq p.1 * p.2 | p <- zip a b]].
Proof. by elim: a b => [|x a IH] [|y b] //=; rewrite IH. Qed.

Lemma big_zip_ord k (a b : seq F) : size a = k -> size b = k -> \sum_(p <- zip a b) p.1 * p.2 = \sum_(j < k) a`_j * b`_j.
Proof.
move=> <-; elim: a b => [|x a IH] [|y b] // sb; first by rewrite big_nil big_ord0.
by rewrite /= big_cons big_ord_recl /= IH //; case: sb.
Qed.

Lemma quad_value_ew M x w (Y : seq (seq F)) g k (T : 'M[F]_k) : (0 < k)%N -> is_eigh T w Y -> entrywise (mf_fun M) g ->
  quad_value M x w (nth [::] Y 0) = Ret (Fin ((\sum_(j < k) (nth [::] Y 0)`_j ^+ 2 * g w`_j) * vnorm (cvec n x) ^+ 2)).
Proof.
move=> k0 [sw sY aY _ _] hg; have sy : size (nth [::] Y 0) = k by move/allP: aY => /(_ _ (mem_nth _ _))/eqP -> //; rewrite sY.
have E1 : [seq Fin (g t) | t <- w] = [seq Fin t | t <- map g w] by rewrite -map_comp.
have E2 : [seq Fin (a ^+ 2) | a <- nth [::] Y 0] = [seq Fin t | t <- [seq a ^+ 2 | a <- nth [::] Y 0]] by rewrite -map_comp.
rewrite /quad_value hg /np_mul !size_map sw sy eqxx E1 E2 zip_mul_fin xsum_map big_map /=.
rewrite (@big_zip_ord k) ?size_map // (eq_bigr (fun j : 'I_k => (nth [::] Y 0)`_j ^+ 2 * g w`_j)) //.
by move=> j _; rewrite !(nth_map 0) ?sw ?sy // mulrC.
Qed.

Lemma quad_value_poly M M' x w (Y : seq (seq F)) g p (i0 : 'I_(mf_deg M')) : i0 = 0%N :> nat -> is_eigh (mfT M') w Y ->
  entrywise (mf_fun M) g -> (forall t, t \in w -> p.[t] = g t) ->
  quad_value M x w (nth [::] Y 0) = Ret (Fin (polymx p (mfT M') i0 i0 * vnorm (cvec n x) ^+ 2)).
Proof.
move=> h0 eig hg hp; have d0 : (0 < mf_deg M')%N by case: (i0) => ? /=; case: (mf_deg M').
rewrite (quad_value_ew x d0 eig hg) (quad_sum _ _ eig) h0; have [sw _ _ _ _] := eig.
by congr (Ret (Fin (_ * _))); apply: eq_bigr => j _; rewrite hp // mem_nth // sw.
Qed.

Lemma matvec_value_poly M M' x w (Y : seq (seq F)) g p (i0 : 'I_(mf_deg M')) : i0 = 0%N :> nat -> mf_deg M' = mf_deg M ->
  is_eigh (mfT M') w Y -> entrywise (mf_fun M) g -> (forall t, t \in w -> p.[t] = g t) ->
  matvec_value M M' x w Y = Ret [seq Fin t | t <- cseq (vnorm (cvec n x) *:
     (qmat n (mf_deg M') (mf_Q M') *m (polymx p (mfT M') *m (delta_mx i0 0 : 'cV[F]_(mf_deg M')))))].
Proof.
move=> h0 dd eig hg hp; have d0 : (0 < mf_deg M')%N by case: (i0) => ? /=; case: (mf_deg M').
have [sw sY aY oY eY] := eig.
have sy : size (nth [::] Y 0) = mf_deg M' by move/allP: aY => /(_ _ (mem_nth _ _))/eqP -> //; rewrite sY.
have E1 : [seq Fin (g t) | t <- w] = [seq Fin t | t <- map g w] by rewrite -map_comp.
rewrite /matvec_value -dd hg E1 /np_mul !size_map sw sy eqxx zip_mul_fin !size_map size_zip size_map sw sy minnn eqxx.
congr Ret; rewrite /qyv; apply: (@eq_from_nth _ (Fin 0)); first by rewrite size_mkseq size_map size_cseq.
rewrite size_mkseq => i hi; rewrite nth_mkseq // (nth_map 0) ?size_cseq // (nth_cseq _ (Ordinal hi)).
set v := [seq p.1 * p.2 | p <- zip _ _].
have -> : mkseq (fun j => xmul (Fin (\sum_(l < mf_deg M') vnorm (cvec n x) * (mf_Q M')`_(l * n + i) * (nth [::] Y l)`_j))
     (nth (Fin 0) [seq Fin t | t <- v] j)) (mf_deg M') =
  [seq Fin t | t <- mkseq (fun j => (\sum_(l < mf_deg M') vnorm (cvec n x) * (mf_Q M')`_(l * n + i) * (nth [::] Y l)`_j) * v`_j) (mf_deg M')].
  rewrite /mkseq -[RHS]map_comp; apply/eq_in_map => j; rewrite mem_iota add0n => /andP[_ hj] /=.
  by rewrite (nth_map 0) //= size_map size_zip size_map sw sy minnn.
rewrite xsum_map; congr Fin; rewrite big_map -{1}[mf_deg M']subn0 -/(index_iota 0 _) big_mkord.
rewrite (polymx_eig p oY eY) !mxE big_distrr /=.
under [RHS]eq_bigr do rewrite -!mulmxA.
have X (l : 'I_(mf_deg M')) : (rows_mx (mf_deg M') (mf_deg M') Y *m diag_mx (\row_j p.[(\row_j0 w`_j0) 0 j]) *m
   (rows_mx (mf_deg M') (mf_deg M') Y)^T *m delta_mx i0 0 : 'cV[F]_(mf_deg M')) l 0 =
   \sum_(j < mf_deg M') (nth [::] Y l)`_j * v`_j.
  rewrite -mulmxA -colE -mulmxA [LHS]mxE; apply: eq_bigr => j _; rewrite mxE.
  rewrite mul_diag_mx !mxE h0 /v (nth_map (0, 0)) ?size_zip ?size_map ?sw ?sy ?minnn //.
  by rewrite nth_zip ?size_map ?sw ?sy //= (nth_map 0) ?sw // hp // mem_nth // sw.
under eq_bigr do rewrite big_distrl /=.
rewrite exchange_big; apply: eq_bigr => l _ /=; rewrite !mulmxA X mxE big_distrr big_distrr /=.
by apply: eq_bigr => j _; rewrite !mulrA.
Qed.
End A.
End LP.
End L.
