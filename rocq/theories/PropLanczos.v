(* Properties C44, C45, C46 (Lanczos parameters, memory safety, refinement of
   the textbook recurrence). *)
From mathcomp Require Import all_ssreflect all_algebra zify ring.
From Verif Require Import Base ModelXtrace LemXtrace ModelLanczos LemLanczos SpecLanczos LemLanczos2 LemLanczos3.
Set Implicit Arguments.
Unset Strict Implicit.
Unset Printing Implicit Defensive.
Import Order.TTheory GRing.Theory Num.Theory.
Local Open Scope ring_scope.

(* ---- C44 ------------------------------------------------------------------- *)
Theorem C44_mod_is_python_modulus (a b : int) : 0 < b ->
  0 <= cmod a b < b /\ exists q, a = q * b + cmod a b.
Proof.
move=> b0; rewrite cmodE //; split; first by rewrite modz_ge0 ?gt_eqF // ltz_pmod.
by exists (a %/ b)%Z; exact: divz_eq.
Qed.

Theorem C44_param_deg (deg : int) (n : nat) : (0 < n)%N ->
  1 <= param_deg deg n <= n%:Z /\ (1 <= deg <= n%:Z -> param_deg deg n = deg).
Proof. by rewrite /param_deg => n0; split=> *; lia. Qed.

Theorem C44_param_ncv (ncv deg : int) (n : nat) : 1 <= deg <= n%:Z ->
  [/\ param_ncv ncv deg n <= deg, Num.min 2 deg <= param_ncv ncv deg n &
      2 <= ncv <= deg -> param_ncv ncv deg n = ncv].
Proof. by rewrite /param_ncv => h; split=> *; lia. Qed.

Theorem C44_param_orth (orth deg ncv : int) : 1 <= ncv <= deg ->
  0 <= param_orth orth deg ncv < ncv /\ (0 <= orth < ncv -> param_orth orth deg ncv = orth).
Proof. by rewrite /param_orth => h; split=> *; case: ifP; lia. Qed.

Section Validate.
Variable F : rcfType.
Theorem C44_validate_ranges (N ncv deg orth : int) (atol rtol : option (xnum F)) N' ncv' deg' orth' at_ rt : 0 <= N ->
  validate_lanczos N ncv deg orth atol rtol = Ok (N', ncv', deg', orth', at_, rt) ->
  [/\ N' = N, 2 <= ncv' <= deg', deg' <= N & 0 <= orth' <= ncv' - 2] /\
  (0 <= deg <= N -> deg' = deg) /\ (deg < 0 -> deg' = N) /\ (2 <= ncv <= deg' -> ncv' = ncv) /\
  (0 <= orth <= ncv' - 2 -> orth' = orth).
Proof.
move=> N0; rewrite /validate_lanczos; case: (if atol is Some x then _ else _) => //= a.
case: ifP => // /negbFE/and3P[h1 h2 h3]; case: ifP => // _ [<- <- <- <- _ _].
move: h1 h2 h3; rewrite /npclip; set d := if deg < 0 then N else _ => h1 h2 h3.
have hd : (deg < 0 -> d = N) /\ (0 <= deg -> d = Num.min (Num.max deg 1) N) by rewrite /d; split=> h; case: ifP; lia.
by clearbody d; split; [split; lia|split; [|split; [|split]]; lia].
Qed.

(* the parameters are rejected exactly when fewer than two steps are possible
   (or the tolerance is NaN) *)
Theorem C44_validate_accepts_iff (N ncv deg orth : int) (atol rtol : option (xnum F)) : 1 <= N ->
  is_ok (validate_lanczos N ncv deg orth atol rtol) =
  [&& 2 <= N, (deg < 0) || (2 <= deg) & if atol is Some NaN then false else true].
Proof.
move=> N1; rewrite /validate_lanczos.
have Nz : (N == 0) = false by lia.
set d := if deg < 0 then N else _; have hd : (deg < 0 /\ d = N) \/ (0 <= deg /\ d = Num.min (Num.max deg 1) N).
  by rewrite /d /npclip; case: ifP; lia.
have c : [&& 2 <= npclip ncv 2 (Num.min d N), Num.max 0 (npclip orth 0 (npclip ncv 2 (Num.min d N) - 2)) + 2 <= npclip ncv 2 (Num.min d N)
   & npclip ncv 2 (Num.min d N) <= d] = (2 <= N) && ((deg < 0) || (2 <= deg)).
  by clearbody d; rewrite /npclip; lia.
have p0 : 0 < N by lia.
case: atol => [[x||| ]|]; rewrite ?Nz ?p0 /= c; case: (2 <= N) => //=; by case: ((deg < 0) || (2 <= deg)).
Qed.

(* the tolerances that come out, and the exceptions *)
Theorem C44_validate_tolerances (N ncv deg orth : int) (atol rtol : option (xnum F)) :
  match validate_lanczos N ncv deg orth atol rtol with
  | Ok r => r.2 = odflt (Fin 0) rtol /\ r.1.2 = (if atol is Some x then xdiv x (Fin N%:~R) else Fin 0)
  | Err e => e = if (N == 0) && (if atol is Some _ then true else false) then ZeroDivisionError else AssertionError
  end.
Proof.
rewrite /validate_lanczos; set c := ~~ _.
case: atol => [x|] /=; last by case: c; rewrite ?andbF //; case: rtol.
case: (N =P 0) => //= N0; have Nz : N%:~R != 0 :> F by rewrite intr_eq0; apply/eqP.
have rE : (if rtol is Some x0 then x0 else Fin 0) = odflt (Fin 0) rtol by case: (rtol).
have sg : (0 < N%:~R :> F) = (0 < N) by rewrite ltr0z.
have sl : (0 < - N%:~R :> F) = ~~ (0 < N) by rewrite oppr_gt0 ltrz0; lia.
case: x => [y||| ] /=; case: c => //=; rewrite ?(negbTE Nz) /xinf_of_sign ?oppr_eq0 ?(negbTE Nz) ?sg ?sl //=.
- by case: (0 < N).
- by case: (0 < N).
Qed.
End Validate.

Section Front.
Variable F : rcfType.
Variable eps : F.
Variable G : Type.
Variable unif : G -> rat * G.
Implicit Types (w : lwork F).
Local Notation lanczos_call := (@lanczos_call F eps G unif).

Definition eff_deg (m : nat) (deg : option int) : int := if deg is Some d then Num.min d m%:Z else m%:Z.

Theorem C44_effective_parameters n m (A : 'M[F]_(n, m)) k dA v0 deg rtol orth rb dtype w g out :
  lanczos_call A k dA v0 deg rtol orth rb dtype w g = Some (Ok out) ->
  [/\ (o_deg out)%:Z = eff_deg m deg, (0 < o_deg out <= m)%N,
      (minn 2 (o_deg out) <= o_ncv out <= o_deg out)%N & rb -> o_ncv out = o_deg out].
Proof.
rewrite /ModelLanczos.lanczos_call -/(eff_deg m deg); set d := eff_deg m deg.
case: ifP => // /negbFE d0; case: ifP => // _; case: ifP => // _.
case: (if w_Q w is Some q then q else _) => [[qr qc] Q]; case: ifP => // _; case: (resolve _ _ _ _) => // bd.
case: (lanczos_recurrence _ _ _ _ _ _ _ _ _ _) => // st [<-].
have dm : d <= m%:Z by rewrite /d /eff_deg; case: (deg) => [x|]; lia.
have E1 a b c e f h : o_deg (if b_out bd then @LBuf F `|d|%N f a b c else LBuf `|d|%N f e h Q) = `|d|%N by case: ifP.
have E a b c e f h : o_ncv (if b_out bd then @LBuf F `|d|%N f a b c else LBuf `|d|%N f e h Q) = f by case: ifP.
by rewrite E1 E; split; rewrite /npclip; case: (rb) => //; lia.
Qed.

Theorem C44_nonpositive_rejected n m (A : 'M[F]_(n, m)) k dA v0 deg rtol orth rb dtype w g :
  eff_deg m deg <= 0 -> lanczos_call A k dA v0 deg rtol orth rb dtype w g = Some (Err AssertionError).
Proof. by rewrite /ModelLanczos.lanczos_call -/(eff_deg m deg) leNgt => ->. Qed.

(* only the value of orth clipped to 0..deg matters: negative and too large
   values mean full re-orthogonalisation *)
Theorem C44_orth_normalised n m (A : 'M[F]_(n, m)) k dA v0 deg rtol orth rb dtype w g :
  (orth < 0) || (eff_deg m deg < orth) ->
  lanczos_call A k dA v0 deg rtol orth rb dtype w g = lanczos_call A k dA v0 deg rtol (eff_deg m deg) rb dtype w g.
Proof. by rewrite /ModelLanczos.lanczos_call -/(eff_deg m deg) => ->; rewrite ltxx orbF if_same. Qed.

(* ---- C45 ------------------------------------------------------------------- *)
(* the kernel: every index used is inside its buffer, and no buffer changes size *)
Theorem C45_kernel_in_bounds n (A : 'M[F]_n) (q : seq F) (deg : int) rtol orth (alpha beta V : seq F) ncv :
  size q = n -> size V = (n * ncv)%N -> deg <= (size alpha)%:Z -> deg < (size beta)%:Z -> (0 < size beta)%N ->
  (0 < ncv)%N -> (deg <= 1) || (2 <= ncv)%N ->
  exists st, lanczos_recurrence eps A q deg rtol orth alpha beta V ncv = Some st /\
    [/\ size (k_q st) = n, size (k_alpha st) = size alpha, size (k_beta st) = size beta & size (k_V st) = (n * ncv)%N].
Proof.
move=> sq sV sa sb b0 ncv0 h.
pose d := if 0 < deg then `|deg|%N else 0%N.
have -> : lanczos_recurrence eps A q deg rtol orth alpha beta V ncv = lanczos_recurrence eps A q d%:Z rtol orth alpha beta V ncv.
  rewrite /lanczos_recurrence; have -> : (if 0 < d%:Z then `|d%:Z|%N else 0%N) = (if 0 < deg then `|deg|%N else 0%N).
    by rewrite /d; do 2?case: ifP; lia.
  case: (wcol n V _ _) => //= V1; case: (rdv q 0 n) => //= x; case: (wcol n V1 0 _) => //= V2; case: (wr beta 0 0) => //= be.
  by rewrite /d; case: ifP => // d0; have -> : `|deg|%N%:Z = deg by lia.
pose st0 := ASt (cvec n q) (nth 0 alpha) (nth 0 beta) (colv n V).
have := @kernel_conc F n A eps rtol d orth ncv (size alpha) (size beta) st0 ncv0.
rewrite /= cvecK // !mkseq_nth flat_colv // => -> //; try by rewrite /d; case: ifP; lia.
by eexists; split; first by []; rewrite size_cseq !size_mkseq size_flatV mulnC.
Qed.

(* lanczos() on a square operator never accesses memory out of bounds, whatever
   its arguments; work arrays given by the caller are as long as their shape says *)
Theorem C45_lanczos_in_bounds n (A : 'M[F]_n) k dA (v0 : option (seq F)) deg rtol orth rb dtype w g :
  (if w_Q w is Some (r, c, Q) then size Q = (r * c)%N else True) ->
  lanczos_call A k dA v0 deg rtol orth rb dtype w g <> None.
Proof.
move=> hw; rewrite /ModelLanczos.lanczos_call -/(eff_deg n deg); set d := eff_deg n deg.
case: ifP => // /negbFE d0; case: ifP => // _; case: ifP => // /negbFE/eqP sv.
set o := if (orth < 0) || _ then _ else _; set c := if rb then d else _.
have o0 : 0 <= o <= d by rewrite /o; case: ifP; lia.
have hc : 1 <= c /\ (2 <= d -> 2 <= c) by rewrite /c /npclip; case: (rb); lia.
case eQ: (if w_Q w is Some q then q else _) => [[qr qc] Q]; case: ifP => // /negbT.
rewrite !negb_or !negbK -!andbA => /and4P[/eqP sa /eqP sb /eqP er /eqP ec].
have sQ : size Q = (n * `|c|)%N.
  by move: hw eQ; case: (w_Q w) => [[[r' c'] Q']|_ [_ _ <-]]; [move=> + [e1 e2 e3]; rewrite e1 e2 e3 er ec|rewrite size_nseq].
case: (resolve _ _ _ _) => // bd.
case: (@C45_kernel_in_bounds n A _ d rtol o (if w_alpha w is Some a then a else nseq (`|d|%N).+1 0)
  (if w_beta w is Some b then b else nseq (`|d|%N).+1 0) Q `|c|%N sv sQ) => [|||||st [->] //]; rewrite ?sa ?sb; lia.
Qed.

(* a non-square operator is not rejected: the kernel runs into undefined
   behaviour for every start vector and every admissible degree *)
Theorem C45_nonsquare_undefined n m (A : 'M[F]_(n, m)) k dA v deg rtol orth rb dtype fr g :
  n <> m -> dA <> OtherDtype -> size v = m -> 0 < eff_deg m deg ->
  lanczos_call A k dA (Some v) deg rtol orth rb dtype (LWork None None None fr) g = None.
Proof.
move=> nm hd sv d0; rewrite /ModelLanczos.lanczos_call -/(eff_deg m deg) d0 /= sv eqxx !size_nseq !eqxx /=.
have -> : (if dA is OtherDtype then true else false) = false by case: (dA) hd.
have [bd ->] : exists bd, resolve k (if dtype is Some d then d else product_dtype k) dA fr = Some bd.
  by case: (k) => [||[]]; case: (dtype) => [[]|]; case: (dA) hd; case: (fr) => //; eexists.
rewrite /lanczos_recurrence; case: (wcol _ _ _ _) => //= V1; rewrite /rdv sv add0n leqnn drop0 take_oversize ?sv //=.
have s1 : size (enormalized v) = m by rewrite /enormalized; case: ifP; rewrite ?size_map.
by rewrite /wcol s1; case: eqP => // e; case: nm.
Qed.
End Front.

(* ---- C46 ------------------------------------------------------------------- *)
(* without re-orthogonalisation, after k steps: alpha and beta are those of the
   recurrence that keeps every vector; column i mod ncv holds the i-th Lanczos
   vector for the last ncv values of i; the rest of the buffers is untouched
   (except the last column, zeroed at the start) *)
Theorem C46_window_is_enough (F : rcfType) (eps : F) n (A : 'M[F]_n) (q : seq F) (deg : nat) (rtol : F) (orth : int)
    (alpha beta V : seq F) ncv k :
  size q = n -> size V = (n * ncv)%N -> (deg <= size alpha)%N -> (deg < size beta)%N ->
  (2 <= ncv)%N -> orth <= 0 ->
  let v := \col_(i < n) q`_i in
  let q0 := (vnorm v)^-1 *: v in
  stop_at A q0 (Num.sqrt n%:R * rtol) deg k ->
  exists st, [/\ lanczos_recurrence eps A q deg%:Z rtol orth alpha beta V ncv = Some st,
    (forall i, (k_alpha st)`_i = if (i < k)%N then la A q0 i else alpha`_i),
    (forall i, (k_beta st)`_i = if (i <= k)%N then lb A q0 i else beta`_i),
    (forall i, (i < k)%N -> (k <= i + ncv)%N -> (\col_(l < n) (k_V st)`_(i %% ncv * n + l)) = lq A q0 i) &
    (forall c l, (k <= c < ncv)%N -> (l < n)%N -> (k_V st)`_(c * n + l) = if c == ncv.-1 then 0 else V`_(c * n + l))].
Proof.
move=> sq sV sa sb n2 o0 v q0 hk.
have n0 : (0 < ncv)%N by lia.
have hs : sizes_ok n deg ncv q alpha beta V by split.
rewrite (@kernel_final F n A eps rtol deg orth ncv q alpha beta V k) ?n2 ?orbT //; last by left.
case: (hk) => kd _ _; eexists; split; first by [].
- move=> i /=; have [hi|hi] := ltnP i (size alpha); first by rewrite nth_mkseq.
  by rewrite !nth_default ?size_mkseq //; case: ifP => //; lia.
- move=> i /=; have [hi|hi] := ltnP i (size beta); first by rewrite nth_mkseq.
  by rewrite !nth_default ?size_mkseq //; case: ifP => //; lia.
- move=> i hi ki /=; have hm : (i %% ncv < ncv)%N by rewrite ltn_mod.
  have := colv_flat (fun c => if (c < k)%N then lq A (start (cvec n q)) (slot ncv k c) else if c == (ncv - 1)%N then 0 else colv n V c) hm.
  rewrite /colv => ->; have im : (i %% ncv < k)%N by apply: leq_ltn_trans hi; exact: leq_mod.
  rewrite im; congr (lq A _ _); have [s1 s2 s3] := slot_spec n0 hm im.
  move/eqP: s3 => e; apply/eqP; case: ltngtP => // c; [move: e; rewrite eq_sym|move: e];
    rewrite eqn_mod_dvd ?(ltnW c) // => /dvdnP [z ez]; case: z ez => [|z] ez; nia.
- move=> c l /andP[kc cn] ln /=.
  have /colP/(_ (Ordinal ln)) := colv_flat (fun c => if (c < k)%N then lq A (start (cvec n q)) (slot ncv k c) else if c == (ncv - 1)%N then 0 else colv n V c) cn.
  by rewrite mxE => ->; rewrite ltnNge kc /= subn1; case: eqP => _; rewrite mxE.
Qed.

(* the number of steps exists and is unique, so the previous theorem describes every run *)
Theorem C46_steps_exist_uniquely (F : rcfType) n (A : 'M[F]_n) q0 (tol : F) deg : (0 < deg)%N ->
  exists k, stop_at A q0 tol deg k /\ forall k', stop_at A q0 tol deg k' -> k' = k.
Proof. by move=> d0; have [k hk] := stop_exists A q0 tol d0; exists k; split=> // k' h; apply: stop_unique h hk. Qed.

Print Assumptions C44_mod_is_python_modulus.
Print Assumptions C44_param_deg.
Print Assumptions C44_param_ncv.
Print Assumptions C44_param_orth.
Print Assumptions C44_validate_ranges.
Print Assumptions C44_validate_accepts_iff.
Print Assumptions C44_effective_parameters.
Print Assumptions C44_nonpositive_rejected.
Print Assumptions C44_orth_normalised.
Print Assumptions C45_kernel_in_bounds.
Print Assumptions C45_lanczos_in_bounds.
Print Assumptions C45_nonsquare_undefined.
Print Assumptions C46_window_is_enough.
Print Assumptions C46_steps_exist_uniquely.
Print Assumptions C44_validate_tolerances.
