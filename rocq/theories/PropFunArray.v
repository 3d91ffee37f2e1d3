(* C104: functions with several values, and functions assigned to an existing MatrixFunction. *)
From Coq Require Import String.
From mathcomp Require Import all_ssreflect all_algebra zify ring.
From Verif Require Import Base ModelStats ModelEstimators ModelTrace ModelXtrace LemXtrace ModelTyping ModelLanczos LemLanczos SpecLanczos
  LemLanczos2 LemLanczos3 LemLanczos4 ModelTqli ModelQuadrature ModelSpecial ModelOperators SpecTridiag SpecQuad SpecOperators
  LemSpectral LemQuad PropQuad PropOperators LemOperators LemOperators2 PropLanczos4 PropMatFun PropMatFun2 PropMatFun3 PropMatFun4 ModelSLQ ModelOpApps ModelFunArray LemFunArray.
Set Implicit Arguments.
Unset Strict Implicit.
Unset Printing Implicit Defensive.
Import Order.TTheory GRing.Theory Num.Theory.
Local Open Scope string_scope.
Local Open Scope ring_scope.

Section P.
Variable F : rcfType.
Variables (eps : F) (fexp flog : F -> F) (feps : F).
Hypothesis eps0 : 0 <= eps.
Variable lv : seq F -> seq F -> res (seq F).
Variable lp : seq F -> seq F -> res (seq F * seq (seq F)).
Hypothesis lapack : lapack_ok lv lp.
Variables (n : nat) (A : 'M[F]_n).
Hypothesis n0 : (0 < n)%N.
Hypothesis sA : A^T = A.
Variables (kd : okind) (dA : dty).
Implicit Types (M : amf F) (x : seq F) (f : afun F).

Local Notation a_init := (a_init fexp flog feps).
Local Notation a__matvec := (a__matvec eps lv lp A kd dA).
Local Notation a_matvec := (a_matvec eps lv lp A kd dA).
Local Notation a_quad1 := (a_quad1 eps lv lp A kd dA).
Local Notation a_quad := (a_quad eps lv lp A kd dA).
Local Notation a_run := (a_run eps lv lp A kd dA).
Local Notation a_matrix_function := (a_matrix_function eps fexp flog feps lv lp A kd dA).
Local Notation mf__matvec := (mf__matvec eps lv lp A kd dA).
Local Notation mf_matvec := (mf_matvec eps lv lp A kd dA).
Local Notation mf_quad := (mf_quad eps lv lp A kd dA).
Local Notation tol := (Num.sqrt n%:R * (1 / 10%:R ^+ 8)).
Local Notation q0 x := ((vnorm (vec n x))^-1 *: vec n x).

(* ---- which functions are accepted ------------------------------------------------------- *)
(* f maps the ones vector to a numpy array whose last axis has length m *)
Definition accepted (m : nat) f : bool :=
  match f (nseq m 1) with AVec true v => size v == m | AMat true c _ => c == m | _ => false end.

Lemma checkP m f : afun_check m f = Ok tt <-> accepted m f.
Proof. by rewrite /afun_check /accepted; case: (f _) => [[] u|[] v|[] c rows] //=; case: eqP. Qed.

Theorem C104_accepts (o : odesc) f deg orth d :
  (exists M, a_init o f deg orth d = Ok M) <->
  [/\ has_product o, (2 <= deg)%R & exists m, square_shape o m /\ accepted m f].
Proof.
have H := C62_accepts_iff fexp flog feps o (@MNone F) (no_kw F) deg orth d; rewrite /ModelFunArray.a_init; split.
  case=> M; case E: (mf_init _ _ _ _ _ _ _ _ _) => [Mb|//] /=; case Ec: (afun_check _ _) => [[]|//] /= _.
  have [h1 h2 [m [h3 _]]] := H.1 (ex_intro _ Mb E); split=> //; exists m; split=> //.
  by have [[<- _] _ _ _ _] := C62_fields h3 E; apply/checkP.
case=> h1 h2 [m [h3 h4]]; have [|Mb E] := H.2; first by split=> //; exists m.
have [[em _] _ _ _ _] := C62_fields h3 E; rewrite E /= em.
by have := (checkP m f).2 h4 => ->; exists (AMF Mb f).
Qed.

(* ---- _matvec computes one column per value of the function --------------------------------- *)
(* the object with the q-th value as its function returns the q-th column, or raises what _matvec raises *)
Theorem C104_columns M x p q : has_rows (a_fun M) p -> (q < p)%N ->
  match (a__matvec M x).1 with
  | Ret cols => size cols = p /\ (mf__matvec (view M q) x).1 = Ret (nth [::] cols q)
  | Raise e => (mf__matvec (view M q) x).1 = Raise e
  | Undef => (mf__matvec (view M q) x).1 = Undef
  | NonFin => (mf__matvec (view M q) x).1 = NonFin
  end.
Proof. by move=> h1 h2; have [_ [_]] := matvec_rows eps lv lp A kd dA x h1 h2. Qed.

(* ---- histories ---------------------------------------------------------------------------------- *)
(* M0 was constructed for this operator, and the native code can apply the operator *)
Definition abuilt o f deg orth d M0 : Prop :=
  [/\ square_shape o n, a_init o f deg orth d = Ok M0, d <> OtherDtype & o_matvec o \/ forall e, kd <> KObject e].
(* the last accepted function of a history *)
Definition current (f0 : afun F) (h : seq (acall F)) : afun F :=
  foldl (fun f c => if c is ASet (Some g) then if accepted n g then g else f else f) f0 h.

Lemma init_ok o f deg orth d M0 : abuilt o f deg orth d M0 ->
  [/\ mf_wf n (a_obj M0), mf_live kd (a_obj M0), a_fun M0 = f, forall y, y \in mf_Q (a_obj M0) -> y = 0 &
      mf_init fexp flog feps o (@MNone F) (no_kw F) deg orth d = Ok (a_obj M0)].
Proof.
case=> sq; rewrite /ModelFunArray.a_init; case E: (mf_init _ _ _ _ _ _ _ _ _) => [Mb|//] /=.
case: (afun_check _ _) => //= _ [<-] hd hc.
have B : built fexp flog feps n kd Mb by exists o, (@MNone F), (no_kw F), deg, orth, d.
by have [] := built_ok eps0 n0 B.
Qed.

Lemma run_ok h : forall M0 M, mf_n (a_obj M0) = n -> a_run M0 h = Some M ->
  keeps n (a_obj M0) (a_obj M) /\ a_fun M = current (a_fun M0) h.
Proof.
elim: h => [|c h IH] M0 M hn /=; first by case=> <-.
have step : keeps n (a_obj M0) (a_obj (a_call eps lv lp A kd dA M0 c).2) /\
    a_fun (a_call eps lv lp A kd dA M0 c).2 = current (a_fun M0) [:: c].
  case: c => [x|X|v] /=.
  - rewrite /ModelFunArray.a_matvec; case: ifP => // _; have := a__matvec_keeps eps lv lp A kd dA M0 x.
    by case: (a__matvec M0 x).
  - exact: a_quad_keeps.
  - case: v => [g|] //=; rewrite hn; case E: (afun_check n g) => [[]|e] /=.
      by have /checkP -> := E.
    by case: ifP => // /checkP; rewrite E.
have [k1 f1] := step; case E: (a_call _ _ _ _ _ _ _ _) k1 f1 => [r M1] /= k1 f1.
have [[[nn _] _ _ _ _] _] := k1.
have tail : a_run M1 h = Some M -> keeps n (a_obj M0) (a_obj M) /\ a_fun M = current (current (a_fun M0) [:: c]) h.
  move/IH => [|k2 f2]; first by rewrite nn.
  by split; [exact: keeps_trans k1 k2 | rewrite f2 f1].
by case: r E => [||e|ys] _ //; exact: tail.
Qed.

Lemma calls_ok o f deg orth d M0 h M : abuilt o f deg orth d M0 -> a_run M0 h = Some M ->
  [/\ mf_wf n (a_obj M), mf_live kd (a_obj M), same_params (a_obj M0) (a_obj M) & a_fun M = current f h].
Proof.
move=> B R; have [W L <- _ _] := init_ok B; have [[S K] E] := run_ok (wf_n W) R; split=> //; first exact: K.
exact: same_live L S.
Qed.

(* a rejected function raises and leaves the object as it was; an accepted one changes nothing else *)
Theorem C104_set o f deg orth d M0 h M g : abuilt o f deg orth d M0 -> a_run M0 h = Some M ->
  set_fun M g =
    match g with
    | None => (Err AssertionError, M)
    | Some g => if accepted n g then (Ok tt, AMF (a_obj M) g)
                else (Err (if g (nseq n 1) is ASca true _ then IndexError else AssertionError), M)
    end.
Proof.
move=> B R; have [W _ _ _] := calls_ok B R; case: g => [g|] //=; rewrite (wf_n W) /afun_check /accepted.
by case: (g _) => [[] u|[] v|[] c rows] //=; case: eqP.
Qed.

(* the same assignment as a command of a history *)
Theorem C104_set_call o f deg orth d M0 h M g : abuilt o f deg orth d M0 -> a_run M0 h = Some M ->
  a_call eps lv lp A kd dA M (ASet g) =
    match g with
    | None => (Raise AssertionError, M)
    | Some g => if accepted n g then (Ret [::], AMF (a_obj M) g)
                else (Raise (if g (nseq n 1) is ASca true _ then IndexError else AssertionError), M)
    end.
Proof.
move=> B R; rewrite /a_call (C104_set g B R); case: g => [g|] //; by case: ifP.
Qed.

(* ---- exact values ------------------------------------------------------------------------------- *)
(* the q-th value is g q applied to every entry, for q < p *)
Definition rows_apply f p (g : nat -> F -> F) : Prop :=
  forall xs, a_rows (f xs) = (size xs, [seq [seq Fin (g q t) | t <- xs] | q <- iota 0 p]).

Lemma rows_apply_has f p g : rows_apply f p g -> has_rows f p.
Proof.
move=> h xs; rewrite h /= size_map size_iota; split=> //.
by rewrite all_map; apply/allP => q _ /=; rewrite size_map.
Qed.

Lemma exact_at (Mb : mfobj F) x s (g : F -> F) (B : 'M[F]_n) : mf_wf n Mb -> mf_live kd Mb -> size x = n ->
  applies (mf_fun Mb) g -> is_mxfun g A B -> stop_at A (q0 x) tol (mf_deg Mb) s ->
  s = n \/ lb A (q0 x) s = 0 ->
  (mf_matvec Mb x).1 = Ret [seq Fin ((B *m vec n x) i 0) | i <- enum 'I_n].
Proof.
move=> W L sx hf [V [l [o1 o2 o3]]] hs hx.
have {}hx : lb A (q0 x) s = 0 by case: hx => [/(full_exact eps0 n0 sA hs)|].
have [w [Y [[_ eig] E]]] := matvec_run lapack eps0 n0 sA dA W L sx hs.
have [p hp] := interpolate g ([seq l 0 j | j <- enum 'I_n] ++ w).
have hpw t : t \in w -> p.[t] = g t by move=> h; apply: hp; rewrite mem_cat h orbT.
have hpl j : p.[l 0 j] = g (l 0 j) by apply: hp; rewrite mem_cat map_f ?mem_enum.
have -> : B = polymx p A by rewrite (mxfun_poly o1 o2 o3 hpl).
rewrite E; have /andP[d0 _] := wf_deg W; have eig' : is_eigh (mfT (mf_after A (zero_Q Mb) x s)) w Y := eig.
rewrite (@matvec_value_poly _ _ Mb (mf_after A (zero_Q Mb) x s) x w Y _ p (Ordinal d0) erefl erefl eig' hf) //.
by rewrite (@run_fun F eps eps0 n n0 A (zero_Q Mb) x s (zero_wf W) hs p (Ordinal d0) erefl (or_intror hx)) /cseq -map_comp.
Qed.

(* all p products are exact when the iteration ends in an invariant subspace, after any calls and
   assignments before *)
Theorem C104_exact o f deg orth d M0 h M x s p g (B : nat -> 'M[F]_n) :
  abuilt o f deg orth d M0 -> a_run M0 h = Some M -> size x = n ->
  rows_apply (current f h) p g -> (forall q, (q < p)%N -> is_mxfun (g q) A (B q)) ->
  stop_at A (q0 x) tol (mf_deg (a_obj M0)) s -> s = n \/ lb A (q0 x) s = 0 ->
  (a__matvec M x).1 = Ret [seq [seq Fin ((B q *m vec n x) i 0) | i <- enum 'I_n] | q <- iota 0 p].
Proof.
move=> H R sx hg hB hs hx; have [W L [_ ed _ _ _] hf] := calls_ok H R; rewrite -ed in hs; rewrite -hf in hg.
have hr := rows_apply_has hg.
case: p hg hB hr => [|p] hg hB hr.
  have [w [Y [[_ eig] ->]]] := a__matvec_run eps0 lapack n0 sA dA W L sx hs.
  have [sw sY aY _ _] := eig; have /andP[d0 dn] := wf_deg W; rewrite /= /a_value hg /a_mul /= size_map.
  have -> : size (nth [::] Y 0) = size w.
    by rewrite sw; have /eqP := all_nthP [::] aY 0%N ltac:(by rewrite sY).
  by rewrite eqxx /= sw /= eqxx.
have key q : (q < p.+1)%N -> (mf__matvec (view M q) x).1 = Ret [seq Fin ((B q *m vec n x) i 0) | i <- enum 'I_n].
  move=> hq; rewrite -(@exact_at (view M q) x s (g q) (B q)) //.
  - by rewrite /ModelOperators.mf_matvec /= (wf_n W) sx eqxx.
  - by case: W => *; split.
  - by move=> xs; transitivity (nth [::] (a_rows (a_fun M xs)).2 q) => //; rewrite hg; cbn [snd]; rewrite (nth_map 0%N) ?size_iota // nth_iota.
  - exact: hB.
have := C104_columns x hr (ltn0Sn p); have := fun q => @C104_columns M x p.+1 q hr.
case: (a__matvec M x).1 => [||e|cols] hq [] //; try by rewrite key.
move=> sc _; congr Ret; apply: (@eq_from_nth _ [::]); first by rewrite size_map size_iota.
move=> q; rewrite sc => lq; have [_] := hq q lq; rewrite key // => -[<-].
by rewrite (nth_map 0%N) ?size_iota // nth_iota.
Qed.

(* ---- what the public methods do with several values ------------------------------------------------ *)
Theorem C104_public M p : has_rows (a_fun M) p -> p <> 1%N ->
  (forall x y, (a_matvec M x).1 <> Ret y) /\ (forall x X ys, (a_quad M (x :: X)).1 <> Ret ys).
Proof.
move=> hp p1; split=> [x y|x X ys].
  rewrite /ModelFunArray.a_matvec; case: ifP => // _.
  case: p hp p1 => [|p] hp p1.
    case E: (a__matvec M x) => [[||e|cols] M'] //=.
    by have := @matvec_none _ eps lv lp _ A kd dA M x hp; rewrite E => /(_ (ex_intro _ cols erefl)) [->].
  have := C104_columns x hp (ltn0Sn p); case: (a__matvec M x) => -[||e|cols] M' //= [sc _].
  by case: cols sc => [|c1 [|c2 cols]] //= sc; case: p1.
rewrite /=; have := @quad1_fails _ eps lv lp _ A kd dA M x p.
by case: (a_quad1 M x) => -[||e|y] M' //= /(_ y hp p1) [].
Qed.

(* with a single value they are those of ModelOperators *)
Theorem C104_single M : has_rows (a_fun M) 1 ->
  (forall x, (a_matvec M x).1 = (mf_matvec (view M 0) x).1) /\
  (forall X, (a_quad M X).1 = (mf_quad (view M 0) X).1).
Proof.
move=> hp; split=> [x|X].
  rewrite /ModelFunArray.a_matvec /ModelOperators.mf_matvec /=; case: ifP => // _.
  have := C104_columns x hp (ltn0Sn 0); case: (a__matvec M x) => -[||e|cols] M' //=; try by move=> ->.
  by case=> sc ->; case: cols sc => [|c []].
elim: X M hp => [//|x X IH] M hp /=; have [h1 [h2 h3]] := quad1_rows eps lv lp A kd dA x hp.
case: (a_quad1 M x) h1 h2 h3 => r M1 /= -> h2 h3; case: (ModelOperators.mf_quad1 _ _ _ _ _ _ _ _) h2 => r' M2 /= h2.
case: r' => //= y; have := IH M1; rewrite h3 h2 => /(_ hp).
by case: (a_quad M1 X) => r1 M3; case: (mf_quad M2 X) => r2 M4 /= ->.
Qed.

(* where the products themselves succeed, the exception is a ValueError *)
Theorem C104_public_raises o f deg orth d M0 h M x s X p : abuilt o f deg orth d M0 -> a_run M0 h = Some M ->
  has_rows (current f h) p -> p <> 1%N -> size x = n -> stop_at A (q0 x) tol (mf_deg (a_obj M0)) s ->
  (a_matvec M x).1 = Raise ValueError /\ (mf_orth (a_obj M0) <= 2 -> (a_quad M (x :: X)).1 = Raise ValueError).
Proof.
move=> H R hp p1 sx hs; have [W L [_ ed eo _ _] hf] := calls_ok H R; rewrite -ed in hs; rewrite -hf in hp; split=> [|ho].
  have [w [Y [_ E]]] := a__matvec_run eps0 lapack n0 sA dA W L sx hs.
  rewrite /ModelFunArray.a_matvec sx (wf_n W) eqxx /= E /= /a_value.
  case Em: (a_mul _ _) => [[b vs]|] //=; case: ifP => //= _; have := a_mul_size Em; have [-> _] := hp w.
  by case: vs {Em} => [|v [|v' vs]] //= hs1; case: p1.
have C : mf_clean (a_obj M) by left; rewrite eo.
have [w [Y [Mb [_ E]]]] := a_quad1_run eps0 lapack n0 sA dA W L C sx hs.
rewrite /= E /aq_value; case Em: (a_mul _ _) => [[b vs]|] //=; have := a_mul_size Em; have [-> _] := hp w.
by case: vs {Em} => [|v [|v' vs]] //= hs1; case: p1.
Qed.

(* ---- an object behaves as one constructed with the last accepted function ----------------------------- *)
Lemma current_accepted f h : accepted n f -> accepted n (current f h).
Proof.
elim: h f => [//|c h IH] f hf /=; apply: IH; case: c => // -[g|] //.
by case: ifP.
Qed.

Lemma fresh o f deg orth d M0 h : abuilt o f deg orth d M0 -> abuilt o (current f h) deg orth d (AMF (a_obj M0) (current f h)).
Proof.
move=> B; have [W _ _ _ E] := init_ok B; case: B => sq Ei hd hc; split=> //.
have hf : accepted n f.
  move: Ei; rewrite /ModelFunArray.a_init E /= (wf_n W); case Ec: (afun_check _ _) => [[]|] //= _.
  exact/checkP.
by rewrite /ModelFunArray.a_init E /= (wf_n W); have /checkP -> := current_accepted h hf.
Qed.

Lemma quad1_fresh M1 M2 x : mf_wf n (a_obj M1) -> mf_wf n (a_obj M2) -> same_params (a_obj M1) (a_obj M2) -> mf_live kd (a_obj M1) ->
  mf_orth (a_obj M1) <= 2 -> size x = n -> a_fun M1 = a_fun M2 ->
  stop_at A (q0 x) tol (mf_deg (a_obj M1)) (mf_deg (a_obj M1)) -> (a_quad1 M1 x).1 = (a_quad1 M2 x).1.
Proof.
move=> W1 W2 S L ho sx ef hs; have L2 := same_live L S; have [_ ed eo _ _] := S.
have [w1 [Y1 [Mb1 [[a1 _] ->]]]] := a_quad1_run eps0 lapack n0 sA dA W1 L (or_introl ho) sx hs.
have C2 : mf_clean (a_obj M2) by left; rewrite eo.
have hs2 : stop_at A (q0 x) tol (mf_deg (a_obj M2)) (mf_deg (a_obj M1)) by rewrite ed.
have [w2 [Y2 [Mb2 [[a2 _] ->]]]] := a_quad1_run eps0 lapack n0 sA dA W2 L2 C2 sx hs2.
have [t1 t2 _] := @after_same _ _ A _ _ x W1 W2 S.
move: a2; rewrite (_ : mf_deg (mf_after A (a_obj M2) x (mf_deg (a_obj M1))) = mf_deg (a_obj M1)) // -t1 -t2.
rewrite (_ : mf_deg (a_obj M1) = mf_deg (mf_after A (a_obj M1) x (mf_deg (a_obj M1)))) // a1 => -[<- <-].
by rewrite ef.
Qed.

Theorem C104_assign o f deg orth d M0 h M : abuilt o f deg orth d M0 -> a_run M0 h = Some M ->
  exists2 M1, abuilt o (current f h) deg orth d M1 &
    (forall x, size x = n -> stop_at A (q0 x) tol (mf_deg (a_obj M0)) (mf_deg (a_obj M0)) ->
       (a__matvec M x).1 = (a__matvec M1 x).1 /\ (a_matvec M x).1 = (a_matvec M1 x).1) /\
    (mf_orth (a_obj M0) <= 2 -> forall X,
       (forall x, x \in X -> size x = n /\ stop_at A (q0 x) tol (mf_deg (a_obj M0)) (mf_deg (a_obj M0))) ->
       (a_quad M X).1 = (a_quad M1 X).1).
Proof.
move=> H R; have H1 := fresh h H; exists (AMF (a_obj M0) (current f h)) => //.
have [W L S hf] := calls_ok H R; have [W0 L0 _ _ _] := init_ok H; split=> [x sx hs|ho].
  have [_ ed _ _ _] := S.
  have E : (a__matvec M x).1 = (a__matvec (AMF (a_obj M0) (current f h)) x).1.
    have hs2 : stop_at A (q0 x) tol (mf_deg (a_obj M)) (mf_deg (a_obj M0)) by rewrite ed.
    have [w1 [Y1 [[a1 _] ->]]] := @a__matvec_run _ _ eps0 _ _ lapack _ A n0 sA kd dA (AMF (a_obj M0) (current f h)) x _ W0 L0 sx hs.
    have [w2 [Y2 [[a2 _] ->]]] := a__matvec_run eps0 lapack n0 sA dA W L sx hs2.
    have [t1 t2 t3] := @after_same _ _ A (zero_Q (a_obj M0)) (zero_Q (a_obj M)) x (zero_wf W0) (zero_wf W) S.
    move: a2; rewrite (_ : mf_deg (mf_after A (zero_Q (a_obj M)) x (mf_deg (a_obj M0))) = mf_deg (zero_Q (a_obj M0))) // -t1 -t2.
    rewrite (_ : mf_deg (zero_Q (a_obj M0)) = mf_deg (mf_after A (zero_Q (a_obj M0)) x (mf_deg (zero_Q (a_obj M0))))) // a1 => -[<- <-].
    have ev f' (Mb Mb' : mfobj F) : mf_deg Mb = mf_deg Mb' -> mf_Q Mb = mf_Q Mb' -> a_value n f' Mb x w1 Y1 = a_value n f' Mb' x w1 Y1.
      by rewrite /a_value => -> ->.
    by cbn [fst a_fun]; rewrite hf; apply: ev; [exact: ed | exact: esym t3].
  split=> //; rewrite /ModelFunArray.a_matvec /= (wf_n W) (wf_n W0); case: ifP => // _.
  by case: (a__matvec M x) E => r M2 /= ->; case: (a__matvec _ x).
move=> X; have [e0 Ee] : exists e, e = mf_deg (a_obj M0) by exists (mf_deg (a_obj M0)).
rewrite -Ee => hX.
have : [/\ mf_wf n (a_obj M) /\ mf_wf n (a_obj M0), same_params (a_obj M0) (a_obj M), mf_live kd (a_obj M0), mf_orth (a_obj M0) <= 2 & e0 = mf_deg (a_obj M0)] by [].
have : a_fun (AMF (a_obj M0) (current f h)) = a_fun M by rewrite hf.
have -> : a_obj M0 = a_obj (AMF (a_obj M0) (current f h)) by [].
move: (AMF (a_obj M0) (current f h)) => M1.
clear -hX lapack eps0 n0 sA; move: M M1; elim: X hX => [//|x X IH] hX M M1 ef [[W W1] S L ho Ee] /=.
have [sx hs] := hX x (mem_head _ _); rewrite Ee in hs.
have E := quad1_fresh W1 W S L ho sx ef hs.
have [[K1 K2] f1] := a_quad1_keeps eps lv lp A kd dA M1 x; have [[K3 K4] f2] := a_quad1_keeps eps lv lp A kd dA M x.
case: (a_quad1 M1 x) E K1 K2 f1 => r1 M1' /= E K1 K2 f1; case: (a_quad1 M x) E K3 K4 f2 => r M' /= E K3 K4 f2.
subst r1; case: r => //= y.
have := IH _ M' M1' _ _; case: (a_quad M' X) => s1 N1; case: (a_quad M1' X) => s2 N2 /= -> //.
- by move=> z hz; apply: hX; rewrite in_cons hz orbT.
- by rewrite f1 ef f2.
have [_ dd oo _ _] := K1; split; [by split; auto| |exact: same_live L K1|by rewrite oo|by rewrite dd].
case: S => -[s1' s2'] s3 s4 s5 s6; case: K1 => -[a1 a2] a3 a4 a5 a6; case: K3 => -[b1 b2] b3 b4 b5 b6.
by split; [split|..]; congruence.
Qed.

(* ---- matrix_function(A, f, v) returns all products ------------------------------------------------------ *)
Theorem C104_matrix_function o f deg x s p g (B : nat -> 'M[F]_n) : square_shape o n -> has_product o -> (2 <= deg)%R ->
  (o_matvec o \/ forall e, kd <> KObject e) -> accepted n f ->
  size x = n -> rows_apply f p g -> (forall q, (q < p)%N -> is_mxfun (g q) A (B q)) ->
  stop_at A (q0 x) tol (minn `|deg| n) s -> s = n \/ lb A (q0 x) s = 0 ->
  a_matrix_function o f x deg = Ret [seq [seq Fin ((B q *m vec n x) i 0) | i <- enum 'I_n] | q <- iota 0 p].
Proof.
move=> sq hp hd hc hf sx hg hB hs hx; rewrite /ModelFunArray.a_matrix_function.
have [|M0 E] := (C104_accepts o f deg 3 F64).2; first by split=> //; exists n.
have H : abuilt o f deg 3 F64 M0 by [].
have [_ _ _ _ E2] := init_ok H; have [[_ dg] _ _ _ _] := C62_fields sq E2.
have ed : mf_deg (a_obj M0) = minn `|deg| n by clear -dg hd; lia.
rewrite E; apply: (C104_exact (M0 := M0) (h := [::]) H erefl sx hg hB) hx.
by rewrite ed.
Qed.

(* ---- hutch raises or fails otherwise on the first probe -------------------------------------------------- *)
Theorem C104_hutch (G : Type) (tppf : F -> nat -> F) (zq : F -> F) (sample : sampler F G n) M p fuel batch c record full callback g r :
  (forall k g, size (sample k g).1 = k) -> has_rows (a_fun M) p -> p <> 1%N ->
  0 < (if full || callback then batch else 1) ->
  crit_call tppf zq c (mest_view (mest_init F 1 true record)) <> Ok true ->
  ohutch tppf zq (a_linop eps lv lp A kd dA) fuel M batch sample c record full callback g <> Some (Ret r).
Proof.
move=> hsz hp p1 hb hc; rewrite /ohutch eqn0Ngt n0 /=; set b := if _ then batch else 1 in hb.
have form v y : a_form eps lv lp A kd dA M v <> Ret y.
  rewrite /a_form; have [_ /(_ (colseq v) [::])] := C104_public hp p1.
  by case: (a_quad M [:: colseq v]) => -[||e|ys] M' //= /(_ ys).
have body notify y : ohutch_body (a_linop eps lv lp A kd dA) sample b notify (LState (mest_init F 1 true record) g [::] [::], M) <> Ret y.
  rewrite /ohutch_body ltNge (ltW hb) /=; have := hsz `|b|%N g; case: (sample _ _) => vs g' /= hs.
  case: vs hs => [|v vs] hs; first by move: hb hs; clear; rewrite /=; lia.
  by rewrite /forms /=; have := form v; case: (a_form _ _ _ _ _ _ _ _) => [||e|u] //= /(_ u).
case: fuel => [//|fu] /=; rewrite /loop_test /=.
case: (crit_call _ _ _ _) hc => [[]|e] //= _.
have := body; rewrite /b; case: (full || callback) => hbody.
  by have := hbody callback; case: (ohutch_body _ _ _ _ _) => [||e|u] //= /(_ u).
by have := hbody false; case: (ohutch_body _ _ _ _ _) => [||e|u] //= /(_ u).
Qed.

(* a function with one value: hutch is the run of the elementwise function of ModelOperators, probe by probe *)
Lemma quad_view X : forall M, has_rows (a_fun M) 1 ->
  [/\ (a_quad M X).1 = (mf_quad (view M 0) X).1, view (a_quad M X).2 0 = (mf_quad (view M 0) X).2 &
      a_fun (a_quad M X).2 = a_fun M].
Proof.
elim: X => [//|x X IH] M hp /=; have [h1 [h2 h3]] := quad1_rows eps lv lp A kd dA x hp.
case: (a_quad1 M x) h1 h2 h3 => r M1 /= -> h2 h3; case: (ModelOperators.mf_quad1 _ _ _ _ _ _ _ _) h2 => r' M2 /= h2.
case: r' => //= y; have := IH M1; rewrite h3 h2 => /(_ hp).
by case: (a_quad M1 X) => r1 M3; case: (mf_quad M2 X) => r2 M4 /= [-> -> ->].
Qed.

Local Notation vw := (fun T (o : outcome (T * amf F)) => obnd o (fun r => Ret (r.1, view r.2 0))).

Lemma form_view M v : has_rows (a_fun M) 1 ->
  mf_form eps lv lp A kd dA (view M 0) v = vw _ (a_form eps lv lp A kd dA M v) /\
  forall r, a_form eps lv lp A kd dA M v = Ret r -> has_rows (a_fun r.2) 1.
Proof.
move=> hp; rewrite /mf_form /a_form; have [] := quad_view [:: colseq v] hp.
case: (a_quad M [:: colseq v]) => r1 M1; case: (mf_quad (view M 0) [:: colseq v]) => r2 M2 /= -> <- hf.
case: r2 => //= ys; case: (finites ys) => [[|y [|z ys']]|] //=; split=> // r [<-] /=; by rewrite hf.
Qed.

Lemma each_view vs : forall M, has_rows (a_fun M) 1 ->
  each (mf_form eps lv lp A kd dA) (view M 0) vs = vw _ (each (a_form eps lv lp A kd dA) M vs) /\
  forall r, each (a_form eps lv lp A kd dA) M vs = Ret r -> has_rows (a_fun r.2) 1.
Proof.
elim: vs => [|v vs IH] M hp /=; first by split=> // r [<-].
have [-> hn] := form_view v hp; case: (a_form _ _ _ _ _ _ M v) hn => [||e|u] //= /(_ u erefl) hp1.
have [-> hn] := IH _ hp1; case: (each _ u.2 vs) hn => [||e|us] //= /(_ us erefl) hp2.
by split=> // r [<-].
Qed.

Lemma oloopS (T : Type) fu (test : T -> res bool) (body : T -> outcome T) st :
  oloop fu.+1 test body st =
  match test st with
  | Err e => Some (Raise e)
  | Ok true => Some (Ret st)
  | Ok false => match body st with
                | Ret st' => oloop fu test body st'
                | Undef => Some Undef | NonFin => Some NonFin | Raise e => Some (Raise e)
                end
  end.
Proof. by []. Qed.

Theorem C104_hutch_single (G : Type) (tppf : F -> nat -> F) (zq : F -> F) (sample : sampler F G n) M fuel batch c record full callback g :
  has_rows (a_fun M) 1 ->
  ohutch tppf zq (mf_linop eps lv lp A kd dA) fuel (view M 0) batch sample c record full callback g =
  omap (fun o => vw _ o) (ohutch tppf zq (a_linop eps lv lp A kd dA) fuel M batch sample c record full callback g).
Proof.
move=> hp; rewrite /ohutch eqn0Ngt n0 /=.
have body b nt st M1 : has_rows (a_fun M1) 1 ->
    ohutch_body (mf_linop eps lv lp A kd dA) sample b nt (st, view M1 0) =
      vw _ (ohutch_body (a_linop eps lv lp A kd dA) sample b nt (st, M1)) /\
    forall r, ohutch_body (a_linop eps lv lp A kd dA) sample b nt (st, M1) = Ret r -> has_rows (a_fun r.2) 1.
  move=> hp1; rewrite /ohutch_body; case: ifP => // _; case: (sample _ _) => vs g'; rewrite /forms /=.
  have [-> hn] := each_view vs hp1; case: (each _ M1 vs) hn => [||e|us] //= /(_ us erefl) hp2.
  by case: (mest_update _ _) => est' [e|] //=; split=> // r [<-].
have loop b nt fu : forall st M1, has_rows (a_fun M1) 1 ->
    oloop fu (fun w : lstate F G n * _ => loop_test tppf zq c w.1) (ohutch_body (mf_linop eps lv lp A kd dA) sample b nt) (st, view M1 0) =
    omap (fun o => vw _ o)
      (oloop fu (fun w : lstate F G n * _ => loop_test tppf zq c w.1) (ohutch_body (a_linop eps lv lp A kd dA) sample b nt) (st, M1)).
  elim: fu => [//|fu IH] st M1 hp1; rewrite !oloopS; case: (loop_test _ _ _ _) => [[]|e] //.
  have [-> hn] := body b nt st M1 hp1; case: (ohutch_body _ _ _ _ (st, M1)) hn => [||e|[st2 M2]] //= /(_ _ erefl) hp2.
  exact: IH.
have fin o : omap (fun o => obnd o (fun w => let: (st, s') := w in
        let v := mest_estimate (lo_est st) in
        Ret (Run (if full || callback then TPair v (EResult (Some (lo_est st)) (PFloat (Fin 0)) 0) else TScalar v)
                 (lo_seen st) (lo_probes st) (lo_gen st), s'))) (omap (fun o => vw (lstate F G n) o) o) =
    omap (fun o => vw (run F G n) o) (omap (fun o => obnd o (fun w => let: (st, s') := w in
        let v := mest_estimate (lo_est st) in
        Ret (Run (if full || callback then TPair v (EResult (Some (lo_est st)) (PFloat (Fin 0)) 0) else TScalar v)
                 (lo_seen st) (lo_probes st) (lo_gen st), s'))) o).
  by case: o => [[||e|[st M1]]|].
by rewrite -fin; case: (full || callback); rewrite loop.
Qed.

(* the constructor accepts functions no product can be computed with *)
Theorem C104_accepted_refuted o deg orth d : square_shape o n -> has_product o -> (2 <= deg)%R ->
  exists f M, [/\ a_init o f deg orth d = Ok M, forall x y, (a_matvec M x).1 <> Ret y &
    forall x X ys, (a_quad M (x :: X)).1 <> Ret ys].
Proof.
move=> sq hp hd; pose f : afun F := fun xs => AMat true (size xs) (nseq 2 [seq Fin t | t <- xs]); exists f.
have [|M E] := (C104_accepts o f deg orth d).2.
  by split=> //; exists n; split=> //; rewrite /accepted /= size_nseq eqxx.
exists M; have hr : has_rows (a_fun M) 2.
  move: E; rewrite /ModelFunArray.a_init; case: (mf_init _ _ _ _ _ _ _ _ _) => //= Mb; case: (afun_check _ _) => //= _ [<-].
  by move=> xs; rewrite /= size_map eqxx.
have p1 : 2%N <> 1%N by [].
by have [h1 h2] := C104_public hr p1; split.
Qed.
End P.

(* the path of three vertices, the functions t and t^2 at once, and then t^2 alone *)
Section Ex.
Variable F : rcfType.
Variables (fexp flog : F -> F) (feps eps : F).
Hypothesis eps0 : 0 <= eps.
Notation lv := (@ref_vals F).
Notation lp := (@ref_pairs F).
Notation P := (P3 (0 : F)).
Definition ex_two : afun F := fun xs => AMat true (size xs) [:: [seq Fin t | t <- xs]; [seq Fin (t ^+ 2) | t <- xs]].
Definition ex_sq : afun F := fun xs => AVec true [seq Fin (t ^+ 2) | t <- xs].
Definition ex_h : seq (acall F) := [:: ASet None; AMatvec (e3 F 0); ASet (Some ex_sq)].

Example C104_ex : exists M0 M, [/\ a_init fexp flog feps (sq_array 3) ex_two 20 3 F64 = Ok M0,
  (a__matvec eps lv lp P KDense F64 M0 (e3 F 0)).1 = Ret [:: [:: Fin 0; Fin 1; Fin 0]; [:: Fin 1; Fin 0; Fin 1]],
  (a_matvec eps lv lp P KDense F64 M0 (e3 F 0)).1 = Raise ValueError,
  a_run eps lv lp P KDense F64 M0 ex_h = Some M &
  (a_matvec eps lv lp P KDense F64 M (e3 F 0)).1 = Ret [:: Fin 1; Fin 0; Fin 1]].
Proof.
have [|M0 E0] := (C104_accepts fexp flog feps (sq_array 3) ex_two 20 3 F64).2.
  by split=> //; [left | exists 3%N; split=> //; exists [::]].
have H : abuilt fexp flog feps 3 KDense (sq_array 3) ex_two 20 3 F64 M0.
  by split=> //; [exists [::] | right].
have [W L ef _ E2] := init_ok eps0 (isT : (0 < 3)%N) H.
have ed : mf_deg (a_obj M0) = 3%N.
  by have [[_ dg] _ _ _ _] := C62_fields (ex_intro _ [::] erefl : square_shape (sq_array 3) 3) E2; clear -dg; lia.
have hs : stop_at P ((vnorm (vec 3 (e3 F 0)))^-1 *: vec 3 (e3 F 0)) (Num.sqrt 3%:R * (1 / 10%:R ^+ 8)) (mf_deg (a_obj M0)) 3.
  by rewrite ed; apply: P3_stop; [left|].
pose g q := if q == 0%N then (fun t : F => t) else (fun t => t ^+ 2).
have mf (p : {poly F}) h : (forall t, p.[t] = h t) -> is_mxfun h P (polymx p P).
  move=> hp; have [B hB] := mxfun_exists (P3_sym 0) h; case: (hB) => U [l [o1 o2 o3]].
  by rewrite (mxfun_poly o1 o2 o3 (fun j => hp (l 0 j))).
have hX : is_mxfun (fun t : F => t) P (polymx 'X P) by apply: mf => t; rewrite hornerX.
have hX2 : is_mxfun (fun t : F => t ^+ 2) P (polymx 'X^2 P) by apply: mf => t; rewrite hornerXn.
have v1 : [seq Fin ((polymx 'X P *m vec 3 (e3 F 0)) i 0) | i <- enum 'I_3] = [:: Fin 0; Fin 1; Fin 0].
  have -> : polymx 'X P *m vec 3 (e3 F 0) = E3 F 1.
    by rewrite -['X]expr1 polymxXn /= mulmx1 vec3 // P3_0 scale0r add0r scale1r.
  by rewrite enum_ordSl enum_ordSl enum_ordSl enum_ord0 /= !mxE.
have v2 : [seq Fin ((polymx 'X^2 P *m vec 3 (e3 F 0)) i 0) | i <- enum 'I_3] = [:: Fin 1; Fin 0; Fin 1].
  have -> : polymx 'X^2 P *m vec 3 (e3 F 0) = E3 F 0 + E3 F 2.
    by rewrite polymxXn /= mulmx1 vec3 // -mulmxA P3_0 scale0r add0r scale1r P3_1 scale0r addr0 !scale1r.
  by rewrite enum_ordSl enum_ordSl enum_ordSl enum_ord0 /= !mxE /= !(addr0, add0r).
have h3 : (0 < 3)%N by [].
have R0 : (a_matvec eps lv lp P KDense F64 M0 (e3 F 0)).1 = Raise ValueError.
  have hr : has_rows (current 3 ex_two [::]) 2 by move=> xs; rewrite /= !size_map !eqxx.
  have p1 : 2%N <> 1%N by [].
  by have [] := @C104_public_raises F eps fexp flog feps eps0 lv lp (@ref_ok F) 3 P h3 (P3_sym 0) KDense F64 (sq_array 3) ex_two 20 3 F64 M0 [::] M0
    (e3 F 0) 3 [::] 2 H erefl hr p1 erefl hs.
have [M hM] : exists M, a_run eps lv lp P KDense F64 M0 ex_h = Some M.
  rewrite /ex_h /a_run /a_call /set_fun; case E1: (a_matvec eps lv lp P KDense F64 M0 (e3 F 0)) R0 => [r M1] /= ->.
  by rewrite /=; case: (afun_check _ _) => [u|e]; eexists.
exists M0, M; split=> //.
  rewrite (@C104_exact F eps fexp flog feps eps0 lv lp (@ref_ok F) 3 P h3 (P3_sym 0) KDense F64 (sq_array 3) ex_two 20 3 F64 M0 [::] M0
    (e3 F 0) 3 2 g (fun q => if q == 0%N then polymx 'X P else polymx 'X^2 P) H erefl erefl _ _ hs (or_introl erefl)) //.
    by rewrite /= v1 v2.
  by case=> [|[|q]].
have hc : current 3 ex_two ex_h = ex_sq by rewrite /current /= /accepted /=.
have := @C104_exact F eps fexp flog feps eps0 lv lp (@ref_ok F) 3 P h3 (P3_sym 0) KDense F64 (sq_array 3) ex_two 20 3 F64 M0 ex_h M
    (e3 F 0) 3 1 (fun _ t => t ^+ 2) (fun q => polymx 'X^2 P) H hM erefl _ (fun _ _ => hX2) hs (or_introl erefl).
rewrite hc => /(_ _); rewrite /a_matvec.
have [W' _ _ _] := calls_ok eps0 h3 H hM; rewrite (wf_n W') /=.
case: (a__matvec _ _ _ _ _ _ _ _) => r M' /= -> /=; first by rewrite v2.
by move=> xs; rewrite /= size_map.
Qed.
End Ex.

Print Assumptions C104_accepts.
Print Assumptions C104_columns.
Print Assumptions C104_set.
Print Assumptions C104_set_call.
Print Assumptions C104_exact.
Print Assumptions C104_public.
Print Assumptions C104_single.
Print Assumptions C104_public_raises.
Print Assumptions C104_assign.
Print Assumptions C104_matrix_function.
Print Assumptions C104_hutch.
Print Assumptions C104_hutch_single.
Print Assumptions C104_accepted_refuted.
Print Assumptions C104_ex.
