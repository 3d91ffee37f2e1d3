(* Properties C31, C32, C33, C34 (hutchpp) and C35 (update_trinv) *)
From Coq Require Import String.
From mathcomp Require Import all_ssreflect all_algebra zify ring.
From Verif Require Import Base Spec ModelStats LemStats PropStats ModelEstimators LemEstimators LemEst2
  PropEstimators ModelTyping ModelRandom ModelTrace LemTrace PropTrace PropUnbiased ModelHutchpp.
Set Implicit Arguments.
Unset Strict Implicit.
Unset Printing Implicit Defensive.
Import Order.TTheory GRing.Theory Num.Theory.
Local Open Scope ring_scope.

Section Hpp.
Variable F : rcfType.
Variable G : Type.
Variable N : nat.
Variable qrQ : forall k, 'M[F]_(N, k) -> 'M[F]_(N, minn N k).
Implicit Types (M : 'M[F]_N) (A : oper F N) (m : option int) (mode : string) (sample : sampler F G N) (full : bool) (g : G).
Local Notation hutchpp_run := (@hutchpp_run F G N qrQ).

(* what the caller gets as the estimate *)
Definition hret_value (r : hret F) : F := match r with HScalar x => x | HPair x _ => x end.
Definition hval (o : res (hret F)) (x : F) : Prop := exists r, o = Ok r /\ hret_value r = x.

(* the sketch, its basis and the residual probes of a run *)
Definition sketch sample k g : 'M[F]_(N, k) := mat_of_cols k (sample k g).1.
Definition basis M sample k g : 'M[F]_(N, minn N k) := qrQ (M *m sketch sample k g).
Definition residual sample k g : 'M[F]_(N, k) := mat_of_cols k (sample k (sample k g).2).1.

(* sum of the quadratic forms of the columns *)
Definition col_forms k M (V : 'M[F]_(N, k)) : seq F := [seq ((col j V)^T *m M *m col j V) 0 0 | j <- enum 'I_k].

Lemma sum_col_forms k M (V : 'M[F]_(N, k)) : \sum_(x <- col_forms M V) x = \tr (V^T *m M *m V).
Proof.
rewrite big_map big_enum /=; apply: eq_bigr => j _.
rewrite -!mulmxA !mxE; apply: eq_bigr => i _; rewrite !mxE; congr (_ * _).
by apply: eq_bigr => l _; rewrite !mxE.
Qed.

Lemma sum_einsum_rows k (X Y : 'M[F]_(N, k)) : \sum_(x <- einsum_rows X Y) x = \tr (Y^T *m X).
Proof.
rewrite big_map big_enum /= exchange_big /=; apply: eq_bigr => j _.
rewrite mxE; apply: eq_bigr => i _; by rewrite !mxE mulrC.
Qed.

Definition samples_of A mode k (Q : 'M[F]_(N, minn N k)) (V : 'M[F]_(N, k)) : seq F :=
  (if (mode =? "full")%string then einsum_rows (op_mat A *m Q) Q else [seq qf A (col j Q) | j <- enum 'I_(minn N k)]) ++
  einsum_rows (op_mat A *m (V - Q *m (Q^T *m V))) (V - Q *m (Q^T *m V)).

Lemma hutchpp_runE A m mode sample full g : (0 < N)%N ->
  let k := `|hpp_nb N m|%N in
  let Q := basis (op_mat A) sample k g in
  let V := residual sample k g in
  hutchpp_run A m mode sample full g =
  if hpp_nb N m < 0 then Err ValueError else
  if hpp_nb N m == 0 then Err ZeroDivisionError else
  let v := (if (mode =? "full")%string then \tr (Q^T *m op_mat A *m Q) else \sum_j qf A (col j Q)) +
           \tr ((V - Q *m Q^T *m V)^T *m op_mat A *m (V - Q *m Q^T *m V)) / k%:R in
  Ok (if full then HPair v (HResult v (2 * hpp_nb N m) (Some (samples_of A mode Q V))) else HScalar v).
Proof.
move=> N0 /=; rewrite /ModelHutchpp.hutchpp_run [N == 0%N]eqn0Ngt N0 /=; case: ifP => // _.
rewrite /basis /sketch /residual absz_eq0.
case: (sample _ g) => ws g1 /=; case: (sample _ g1) => gs g2 /=; case: ifP => // _.
set Q := qrQ _; set V := mat_of_cols _ gs.
have eq : [seq quad_form A (col j Q) | j <- enum 'I_(minn N `|hpp_nb N m|)] =
  [seq qf A (col j Q) | j <- enum 'I_(minn N `|hpp_nb N m|)].
  by apply: eq_map => j; rewrite quad_formE.
have -> : \sum_(x <- if (mode =? "full")%string then einsum_rows (op_mat A *m Q) Q
         else [seq quad_form A (col j Q) | j <- enum 'I_(minn N `|hpp_nb N m|)]) x =
  if (mode =? "full")%string then \tr (Q^T *m op_mat A *m Q) else \sum_j qf A (col j Q).
  by case: ifP => _; [rewrite sum_einsum_rows mulmxA|rewrite eq big_map big_enum].
by rewrite sum_einsum_rows div1r [_^-1 * _]mulrC !mulmxA /samples_of eq !mulmxA.
Qed.

(* ---- C31 ------------------------------------------------------------------- *)
(* "ensure nb divides by 3" (trace.py 152): it does so only if it did before *)
Theorem C31_sketch_divisible_iff m :
  (3 %| hpp_nb N m)%Z = (3 %| (if m is Some x then x else (N %/ 3)%N%:Z))%Z.
Proof. by rewrite /hpp_nb; case: m => [x|]; lia. Qed.

Theorem C31_sketch_divisible_refuted : exists x : int, 0 < x /\ ~~ (3 %| hpp_nb N (Some x))%Z.
Proof. by exists 1. Qed.

Theorem C31_exceptions A m mode sample full g : (0 < N)%N ->
  let out := hutchpp_run A m mode sample full g in
  [/\ out = Err ZeroDivisionError <-> (m = None /\ (N < 3)%N) \/ m = Some 0,
      out = Err ValueError <-> (exists x, m = Some x /\ x <= - 2%:R),
      forall e, out = Err e -> e = ZeroDivisionError \/ e = ValueError &
      is_ok out <-> (m = None /\ (3 <= N)%N) \/ exists x, [/\ m = Some x, - 1 <= x & x != 0]].
Proof.
move=> N0 out; rewrite {}/out hutchpp_runE //.
have hnb : hpp_nb N m = (if m is Some x then x else (N %/ 3)%N%:Z) + ((if m is Some x then x else (N %/ 3)%N%:Z) %% 3)%Z by [].
case: m hnb => [x|] ->.
  case: ltrP => h; last case: eqVneq => h2; split.
  - by split=> // -[[]//|[e]]; move: h; rewrite e; lia.
  - by split=> // _; exists x; split=> //; lia.
  - by move=> e [<-]; right.
  - by split=> // -[[]//|[y [[<-]]]]; lia.
  - by split=> // _; right; congr Some; lia.
  - by split=> // -[y [[<-]]]; lia.
  - by move=> e [<-]; left.
  - by split=> // -[[]//|[y [[<-]]]]; lia.
  - by split; [case: full|case=> [[]//|[e]]; move: h2; rewrite e; lia].
  - by split; [case: full|case=> y [[<-]]; lia].
  - by move=> e; case: full.
  - by split=> [_|]; [right; exists x; split=> //; lia|case: full].
case: ltrP => h; last case: eqVneq => h2; first by move: h; lia.
  have N3 : (N < 3)%N by lia.
  split.
  - by split=> // _; left.
  - by split=> // -[y []].
  - by move=> e [<-]; left.
  - by split=> // -[[_]|[y []]] //; lia.
have N3 : (3 <= N)%N by lia.
split.
- by split; [case: full|case=> [[_]|//]; lia].
- by split; [case: full|case=> y []].
- by move=> e; case: full.
- by split=> [_|]; [left|case: full].
Qed.

(* ---- C34 ------------------------------------------------------------------- *)
Lemma trace_rng A k (Q : 'M[F]_(N, k)) :
  (forall v, qf A v = (v^T *m op_mat A *m v) 0 0) ->
  \sum_j qf A (col j Q) = \tr (Q^T *m op_mat A *m Q).
Proof.
move=> h; rewrite -sum_col_forms big_map big_enum /=; by apply: eq_bigr => j _; rewrite h.
Qed.

Lemma hutchpp_value A m mode sample full g : (0 < N)%N -> 0 < hpp_nb N m ->
  (forall v, qf A v = (v^T *m op_mat A *m v) 0 0) ->
  let k := `|hpp_nb N m|%N in
  let Q := basis (op_mat A) sample k g in
  let V := residual sample k g in
  hval (hutchpp_run A m mode sample full g)
    (\tr (Q^T *m op_mat A *m Q) + \tr ((V - Q *m Q^T *m V)^T *m op_mat A *m (V - Q *m Q^T *m V)) / k%:R).
Proof.
move=> N0 k0 h k Q V; rewrite hutchpp_runE // ltNge ltW //= gt_eqF //= -/k -/Q -/V trace_rng //.
by case: full => /=; (eexists; split; [by []|]) => /=; case: ifP.
Qed.

(* for an operator whose quad, if any, is its quadratic form *)
Theorem C34_modes_agree A m mode mode' sample full full' g : (0 < N)%N -> 0 < hpp_nb N m ->
  (forall v, qf A v = (v^T *m op_mat A *m v) 0 0) ->
  exists x, hval (hutchpp_run A m mode sample full g) x /\ hval (hutchpp_run A m mode' sample full' g) x.
Proof. by move=> N0 k0 h; eexists; split; apply: hutchpp_value. Qed.

(* what is reported with full=True *)
Theorem C34_reported M m mode sample g : (0 < N)%N -> 0 < hpp_nb N m ->
  let k := `|hpp_nb N m|%N in
  let Q := basis M sample k g in
  let V := residual sample k g in
  let V' := V - Q *m Q^T *m V in
  exists x s1 s2,
   [/\ hutchpp_run (Oper M None) m mode sample true g = Ok (HPair x (HResult x (2 * hpp_nb N m) (Some (s1 ++ s2)))),
       size s1 = (if (mode =? "full")%string then N else minn N k) /\ size s2 = N,
       mode <> "full"%string -> s1 = col_forms M Q,
       \sum_(y <- s1) y = \sum_(y <- col_forms M Q) y &
       \sum_(y <- s2) y = \sum_(y <- col_forms M V') y].
Proof.
move=> N0 k0 k Q V V'; rewrite hutchpp_runE // ltNge ltW //= gt_eqF //= -/k -/Q -/V.
eexists _, (if (mode =? "full")%string then einsum_rows (M *m Q) Q else [seq qf (Oper M None) (col j Q) | j <- enum 'I_(minn N k)]), _; split.
- by [].
- by case: ifP => _; rewrite !size_map -!enumT !size_enum_ord.
- by move/String.eqb_neq ->.
- case: ifP => // _; by rewrite sum_einsum_rows sum_col_forms mulmxA.
- by rewrite sum_einsum_rows sum_col_forms !mulmxA.
Qed.

(* so whenever nb differs from N the residual samples are not the nb
   quadratic forms of the residual probes, nor are the sketch samples in full
   mode those of the basis when nb < N *)
Theorem C34_samples_refuted M m mode sample g : (0 < N)%N -> 0 < hpp_nb N m -> (`|hpp_nb N m| != N)%N ->
  exists x r s, [/\ hutchpp_run (Oper M None) m mode sample true g = Ok (HPair x r), hr_samples r = Some s &
    forall k (Q : 'M[F]_(N, k)) (V : 'M[F]_(N, `|hpp_nb N m|)), 
      k = (if (mode =? "full")%string then N else minn N `|hpp_nb N m|) -> s != col_forms M Q ++ col_forms M V].
Proof.
move=> N0 k0 nN; have [x [s1 [s2 [e [h1 h2] _ _ _]]]] := C34_reported M mode sample g N0 k0.
exists x; eexists; eexists; split; [exact: e|by []|] => k Q V hk.
apply: contra nN => /eqP/(congr1 size); rewrite !size_cat h1 h2 !size_map -!enumT !size_enum_ord hk => /eqP.
by rewrite eqn_add2l eq_sym.
Qed.

(* ---- C32 ------------------------------------------------------------------- *)
Theorem C32_exact_if_range_captured M m mode sample full g : (0 < N)%N -> 0 < hpp_nb N m ->
  let Q := basis M sample `|hpp_nb N m|%N g in
  Q *m Q^T *m M = M ->
  hval (hutchpp_run (Oper M None) m mode sample full g) (\tr M).
Proof.
move=> N0 k0 Q h; have := @hutchpp_value (Oper M None) m mode sample full g N0 k0 (fun=> erefl).
rewrite /= -/Q; set V := residual _ _ _; set V' := _ - _.
have -> : V'^T *m M = 0.
  rewrite /V' linearB /= !trmx_mul trmxK mulmxBl -!mulmxA [Q *m (_ *m _)]mulmxA h subrr //.
by rewrite mul0mx mxtrace0 mul0r addr0 -mulmxA mxtrace_mulC -mulmxA mxtrace_mulC h.
Qed.

(* the sketch hits the whole range of A *)
Theorem C32_exact_if_rank M m mode sample full g : (0 < N)%N -> 0 < hpp_nb N m ->
  let k := `|hpp_nb N m|%N in
  let W := sketch sample k g in
  let Q := basis M sample k g in
  Q^T *m Q = 1%:M -> (exists R, M *m W = Q *m R) -> \rank (M *m W) = \rank M ->
  hval (hutchpp_run (Oper M None) m mode sample full g) (\tr M).
Proof.
move=> N0 k0 k W Q oQ [R eR] hr; apply: C32_exact_if_range_captured => //; rewrite -/k -/Q.
have : (M^T <= (M *m W)^T)%MS.
  rewrite -(mxrank_leqif_sup _).2 ?mxrank_tr ?hr // trmx_mul; exact: submxMl.
case/submxP => X /(congr1 trmx); rewrite trmxK trmx_mul trmxK => ->.
by rewrite eR -!mulmxA [Q^T *m (Q *m _)]mulmxA oQ mul1mx.
Qed.

(* at least as many probes as rows *)
Theorem C32_exact_if_square M m mode sample full g : (0 < N)%N -> N%:Z <= hpp_nb N m ->
  let Q := basis M sample `|hpp_nb N m|%N g in
  Q^T *m Q = 1%:M ->
  hval (hutchpp_run (Oper M None) m mode sample full g) (\tr M).
Proof.
move=> N0 k0 Q oQ; have h0 : 0 < hpp_nb N m by lia.
apply: C32_exact_if_range_captured => //; rewrite -/Q.
have e : minn N `|hpp_nb N m| = N by apply/minn_idPl; lia.
suff -> : Q *m Q^T = 1%:M by rewrite mul1mx.
by move: Q oQ; rewrite e => Q; exact: mulmx1C.
Qed.
End Hpp.

(* ---- C33 ------------------------------------------------------------------- *)
Section Unbiased.
Variable F : rcfType.
Variables (X : finType) (u : X -> rat) (flip : X -> X).
Hypothesis uP : forall x, 0 <= u x < 1.
Hypothesis flipK : involutive flip.
Hypothesis flipP : forall x, (u (flip x) < 1 / 2%:R) = ~~ (u x < 1 / 2%:R).
Hypothesis X0 : (0 < #|X|)%N.
Variable gauss : seq X -> F * seq X.
Variable N : nat.
Variable qrQ : forall k, 'M[F]_(N, k) -> 'M[F]_(N, minn N k).
Local Notation S := (iso_sampler (tape_unif u) gauss N Rademacher).
Local Notation average := (@average F X).

Lemma tape_rest k (t : seq X) : (k * N <= size t)%N -> (S k t).2 = drop (k * N) t.
Proof. by move=> h; rewrite /iso_sampler /mk_sampler /iso_fill fill_tape. Qed.

Lemma tape_cols_cat k (s t : seq X) : (k * N <= size s)%N -> (S k (s ++ t)).1 = (S k s).1.
Proof.
move=> h; rewrite !tape_cols // ?size_cat ?(leq_trans h) ?leq_addr //.
apply/eq_in_map => j; rewrite mem_iota add0n => /andP[_ hj].
apply/matrixP => i z; rewrite !mxE /sgn_at map_cat nth_cat size_map.
suff -> : (j * N + i < size s)%N by [].
apply: leq_trans h; apply: (@leq_trans (j * N + N)); first by rewrite ltn_add2l.
by rewrite addnC -mulSn leq_mul2r hj orbT.
Qed.

(* mean of tr(V^T B V) over sign matrices V *)
Lemma average_trace k L (B : 'M[F]_N) : (k * N <= L)%N ->
  average L (fun t => \tr ((mat_of_cols k (S k t).1)^T *m B *m mat_of_cols k (S k t).1)) = k%:R * \tr B.
Proof.
move=> h; rewrite /average.
rewrite (eq_bigr (fun t => \sum_(j < k) \sum_a \sum_b B a b * (sg F u t (pos h j a) * sg F u t (pos h j b)))) => [|t _]; last first.
  apply: eq_bigr => j _; rewrite !mxE exchange_big /=; apply: eq_bigr => b _.
  rewrite mxE big_distrl /=; apply: eq_bigr => a _.
  by rewrite !mxE (entry uP gauss h) !mxE [_ * B a b]mulrC -mulrA.
rewrite exchange_big /= (eq_bigr (fun=> \tr B * #|{: L.-tuple X}|%:R)) => [|j _]; last first.
  rewrite exchange_big /= /mxtrace big_distrl /=; apply: eq_bigr => a _.
  rewrite exchange_big /= (bigD1 a) //= -big_distrr /= (moment2 _ flipK flipP) eqxx mul1r big1 ?addr0 // => b ab.
  by rewrite -big_distrr /= (moment2 _ flipK flipP) pos_eq eqxx eq_sym (negPf ab) mul0r mulr0.
by rewrite sumr_const card_ord -mulrnAl mulfK ?card_tape // mulr_natl.
Qed.

(* given the sketch (the draws `s`), the average over all residual draws *)
Theorem C33_hutchpp_unbiased_given_sketch M m mode full (s : seq X) L :
  let k := `|hpp_nb N m|%N in
  (0 < N)%N -> 0 < hpp_nb N m -> size s = (k * N)%N -> (k * N <= L)%N ->
  (let Q := qrQ (M *m sketch S k s) in Q^T *m Q = 1%:M) ->
  exists val : seq X -> F,
   (forall t : L.-tuple X, hval (hutchpp_run qrQ (Oper M None) m mode S full (s ++ t)) (val (s ++ t))) /\
   average L (fun t => val (s ++ t)) = \tr M.
Proof.
move=> k N0 k0 ss h oQ; set Q := qrQ _ in oQ.
pose P := 1%:M - Q *m Q^T.
pose V (t : seq X) := mat_of_cols k (S k t).1.
pose v (t : seq X) := \tr (Q^T *m M *m Q) + \tr ((V t)^T *m (P^T *m M *m P) *m V t) / k%:R.
exists (fun t => v (drop (k * N) t)); split=> [t|].
  have eb : basis qrQ M S k (s ++ t) = Q by rewrite /basis /sketch tape_cols_cat ?ss.
  have er : residual S k (s ++ t) = V t.
    by rewrite /residual tape_rest ?size_cat ?ss ?leq_addr // drop_size_cat.
  have := @hutchpp_value F _ N qrQ (Oper M None) m mode S full (s ++ t) N0 k0 (fun=> erefl).
  rewrite /= -/k eb er drop_size_cat //; congr (hval _ (_ + \tr _ / _)).
  have -> : V t - Q *m Q^T *m V t = P *m V t by rewrite mulmxBl mul1mx.
  by rewrite trmx_mul !mulmxA.
have -> : average L (fun t => v (drop (k * N) (s ++ t))) = average L v.
  by rewrite /average; congr (_ / _); apply: eq_bigr => t _; rewrite drop_size_cat.
have k1 : k%:R != 0 :> F by rewrite pnatr_eq0 absz_eq0 gt_eqF.
rewrite /average /v big_split /= sumr_const -[_ *+ _]mulr_natr mulrDl mulfK ?card_tape //.
rewrite -big_distrl /= -mulrA [_^-1 * _]mulrC mulrA -/(average L (fun t => \tr ((V t)^T *m (P^T *m M *m P) *m V t))).
rewrite average_trace // mulrAC mulfV // mul1r.
have PT : P^T = P by rewrite /P linearB /= trmx1 trmx_mul trmxK.
have PP : P *m P = P.
  by rewrite {2}/P mulmxBr mulmx1 {1}/P mulmxBl mul1mx -!mulmxA [Q^T *m (Q *m _)]mulmxA oQ mul1mx subrr subr0.
rewrite PT -[P *m M *m P]mulmxA [\tr (P *m _)]mxtrace_mulC -[M *m P *m P]mulmxA PP mulmxBr mulmx1 linearB /=.
by rewrite -mulmxA mxtrace_mulC mulmxA addrC subrK.
Qed.

(* averaging over sketch and residual draws together *)
Theorem C33_hutchpp_unbiased M m mode full L :
  let k := `|hpp_nb N m|%N in
  (0 < N)%N -> 0 < hpp_nb N m -> (k * N <= L)%N ->
  (forall Y : 'M[F]_(N, k), (qrQ Y)^T *m qrQ Y = 1%:M) ->
  exists val : seq X -> F,
   (forall t : (k * N + L).-tuple X, hval (hutchpp_run qrQ (Oper M None) m mode S full (t : seq X)) (val t)) /\
   average (k * N + L) val = \tr M.
Proof.
move=> k N0 k0 h oQ.
have H (s : (k * N).-tuple X) := C33_hutchpp_unbiased_given_sketch (M := M) mode full N0 k0 (size_tuple s) h (oQ _).
pose val t := if hutchpp_run qrQ (Oper M None) m mode S full t is Ok r then hret_value r else 0.
have E (s : (k * N).-tuple X) (t : L.-tuple X) :
  hval (hutchpp_run qrQ (Oper M None) m mode S full (s ++ t)) (val (s ++ t)).
  have [v [hv _]] := H s; have [r [e _]] := hv t; by exists r; rewrite /val e.
exists val; split=> [t|].
  have ht : size (take (k * N) t) = (k * N)%N by rewrite size_takel // size_tuple leq_addr.
  have hd : size (drop (k * N) t) = L by rewrite size_drop size_tuple addKn.
  have := E (tcast ht (in_tuple (take (k * N) t))) (tcast hd (in_tuple (drop (k * N) t))).
  by rewrite !val_tcast /= cat_take_drop.
rewrite /average.
rewrite (reindex (fun p : (k * N).-tuple X * L.-tuple X => cat_tuple p.1 p.2)) /=; last first.
  have hb (t : (k * N + L).-tuple X) : (size (take (k * N) t) == k * N)%N && (size (drop (k * N) t) == L).
    by rewrite size_takel ?size_drop size_tuple ?leq_addr // addKn !eqxx.
  exists (fun t => (Tuple (proj1 (andP (hb t))), Tuple (proj2 (andP (hb t))))) => [[s t] _|t _].
    by congr pair; apply: val_inj; rewrite /= ?take_size_cat ?drop_size_cat ?size_tuple.
  by apply: val_inj; rewrite /= cat_take_drop.
rewrite -(pair_bigA _ (fun (s : (k * N).-tuple X) (t : L.-tuple X) => val (s ++ t))) /=.
rewrite (eq_bigr (fun=> \tr M * #|{: L.-tuple X}|%:R)) => [|s _]; last first.
  have [v [hv <-]] := H s; rewrite /average mulfVK ?card_tape //; apply: eq_bigr => t _.
  by have [r [e <-]] := hv t; rewrite /val e.
rewrite sumr_const -mulrnAr -[_ *+ _]mulr_natr -natrM !card_tuple -expnD addnC mulfK //.
by rewrite pnatr_eq0 -lt0n expn_gt0 X0.
Qed.
End Unbiased.

(* ---- C35 ------------------------------------------------------------------- *)
Section Trinv.
Variable F : rcfType.

(* the matrix B with the new column appended, its last entry on the diagonal *)
Definition append_col n (B : 'M[F]_n) (b : 'cV[F]_(n + 1)) : 'M[F]_(n + 1) :=
  block_mx B (usubmx b) 0 (dsubmx b).
Definition upper n (B : 'M[F]_n) : Prop := forall i j : 'I_n, (j < i)%N -> B i j = 0.

Theorem C35_update_trinv_inverse n (B Bi : 'M[F]_n) (b : 'cV[F]_(n + 1)) :
  Bi *m B = 1%:M -> b (rshift n 0) 0 != 0 ->
  exists Bi', [/\ update_trinv Bi b = Ok Bi', Bi' *m append_col B b = 1%:M & append_col B b *m Bi' = 1%:M].
Proof.
move=> hB b0; exists (trinv_step Bi b).
have hl : trinv_step Bi b *m append_col B b = 1%:M.
  have ed : dsubmx b = (b (rshift n 0) 0)%:M.
    by apply/matrixP => i j; rewrite !ord1 !mxE eqxx.
  rewrite /trinv_step /append_col mulmx_block !mulmx0 !mul0mx !addr0 hB add0r ed.
  rewrite -scalar_mxM mulVf // mul_mx_scalar scalerA mulfV // scale1r mulNmx subrr.
  by rewrite -scalar_mx_block.
split=> //; last exact: mulmx1C.
rewrite /update_trinv; case: eqP => // em; case: eqP => // el.
by rewrite !castmx_id.
Qed.

Theorem C35_update_trinv_shapes n m l (Bi : 'M[F]_(n, m)) (b : 'cV[F]_l) :
  (update_trinv Bi b = Err AssertionError <-> m != n \/ l != (n + 1)%N) /\
  (is_ok (update_trinv Bi b) <-> m = n /\ l = (n + 1)%N).
Proof.
rewrite /update_trinv; case: eqP => e1; last by split; split=> //; [move=> _; left; apply/eqP|case].
case: eqP => e2; first by split; split=> //; case.
by split; split=> //; [move=> _; right; apply/eqP|case].
Qed.

(* everything update_trinv can build by inserting columns one at a time,
   starting from the 0 x 0 array, together with the matrix whose columns were
   inserted *)
Inductive built : forall n, 'M[F]_n -> 'M[F]_n -> Prop :=
  | Built0 : built (0 : 'M[F]_0) (0 : 'M[F]_0)
  | BuiltS n (B Bi : 'M[F]_n) (b : 'cV[F]_(n + 1)) Bi' :
      built B Bi -> b (rshift n 0) 0 != 0 -> update_trinv Bi b = Ok Bi' -> built (append_col B b) Bi'.

Lemma append_upper n (B : 'M[F]_n) b : upper B -> upper (append_col B b).
Proof.
move=> h i j; rewrite /append_col; case: (split_ordP i) => i' ->; case: (split_ordP j) => j' ->.
- by rewrite block_mxEul => ?; apply: h.
- rewrite !ord1 /= addn0 => /ltnW; by rewrite leqNgt ltn_ord.
- by rewrite block_mxEdl mxE.
- by rewrite !ord1 ltnn.
Qed.

Lemma update_upper n (Bi : 'M[F]_n) (b : 'cV[F]_(n + 1)) Bi' : upper Bi -> update_trinv Bi b = Ok Bi' -> upper Bi'.
Proof.
rewrite /update_trinv; case: eqP => // e1; case: eqP => // e2; rewrite !castmx_id => h [<-] i j.
rewrite /trinv_step; case: (split_ordP i) => i' ->; case: (split_ordP j) => j' ->.
- by rewrite block_mxEul => ?; apply: h.
- rewrite !ord1 /= addn0 => /ltnW; by rewrite leqNgt ltn_ord.
- by rewrite block_mxEdl mxE.
- by rewrite !ord1 ltnn.
Qed.

Theorem C35_insertion_sequence n (B Bi : 'M[F]_n) : built B Bi ->
  [/\ upper B, upper Bi, B *m Bi = 1%:M & Bi *m B = 1%:M].
Proof.
elim=> [|{n B Bi} n B Bi b Bi' _ [u1 u2 m1 m2] b0 e]; first by split=> [[]|[]||] //; apply/matrixP; case.
have [x [ex h1 h2]] := C35_update_trinv_inverse m2 b0; move: ex; rewrite e => -[ex]; rewrite ex.
by split=> //; rewrite -?ex; [exact: append_upper|exact: update_upper e].
Qed.

(* conversely every upper triangular matrix with non-zero diagonal can be
   built: insertion never gets stuck *)
Theorem C35_insertion_complete n (B : 'M[F]_n) : upper B -> (forall i, B i i != 0) -> exists Bi, built B Bi.
Proof.
elim: n B => [|n IH] B uB dB.
  exists 0; suff -> : B = 0 by exact: Built0.
  by apply/matrixP; case.
have e1 : (n + 1)%N = n.+1 by rewrite addn1.
move: B uB dB; rewrite -e1 => B uB dB.
have uu : upper (ulsubmx B).
  by move=> i j ij; rewrite mxE mxE; apply: uB.
have du i : ulsubmx B i i != 0 by rewrite mxE mxE; apply: dB.
have [Bi hb] := IH _ uu du.
pose b : 'cV[F]_(n + 1) := rsubmx B.
have hB : B = append_col (ulsubmx B) b.
  rewrite /append_col -{1}(submxK B); congr (block_mx _ _ _ _); try by apply/matrixP => i j; rewrite !mxE.
  apply/matrixP => i j; rewrite mxE mxE [RHS]mxE ord1; apply: uB => /=; by rewrite addn0.
have b0 : b (rshift n 0) 0 != 0.
  by rewrite mxE; apply: dB.
have bi : Bi *m ulsubmx B = 1%:M by have [] := C35_insertion_sequence hb.
have [Bi' [e _ _]] := C35_update_trinv_inverse bi b0.
by exists Bi'; rewrite hB; apply: BuiltS hb b0 e.
Qed.
End Trinv.

(* ---- concrete cases --------------------------------------------------------- *)
Section Examples.
Variable F : rcfType.

(* A = [[2,3,4],[0,0,0],[0,0,0]], probes of ones, no m: nb = 2, both columns
   of the sketch are (9,0,0) and its basis is (1,0,0), (0,1,0) *)
Definition hM : 'M[F]_3 := \matrix_(i, j) (if i == 0 then (j + 2)%:R else 0).
Definition ones : sampler F nat 3 := fun k g => (nseq k (const_mx 1), (g + k)%N).
Definition qr0 N (k : nat) (Y : 'M[F]_(N, k)) : 'M[F]_(N, minn N k) := pid_mx (minn N k).

Lemma qr0_orth N k (Y : 'M[F]_(N, k)) : (qr0 Y)^T *m qr0 Y = 1%:M.
Proof. by rewrite /qr0 tr_pid_mx mul_pid_mx minnn (minn_idPr (geq_minl _ _)) pid_mx_1. Qed.

Lemma hM_sketch : hM *m sketch ones 2 0%N = \matrix_(i, j) (if i == 0 then 9%:R else 0).
Proof.
apply/matrixP => i j; rewrite !mxE !big_ord_recl !big_ord0 !mxE /=.
have E (l : 'I_3) : nth 0 [:: const_mx 1; const_mx 1] j l 0 = 1 :> F by case: j => [[|[|]]] // ?; rewrite mxE.
rewrite !E.
by case: i => [[|[|[|]]]] //= _; rewrite ?mul0r ?addr0 // !mulr1 -!natrD.
Qed.

Lemma rank1 k (c : 'I_k -> F) : (exists j, c j != 0) ->
  \rank (\matrix_(i < 3, j < k) (if i == 0 then c j else 0)) = 1%N.
Proof.
case=> j0 cj; apply/eqP; rewrite eqn_leq; apply/andP; split; last first.
  rewrite lt0n mxrank_eq0; apply/eqP => /matrixP/(_ 0 j0); rewrite !mxE /=; by apply/eqP.
have -> : \matrix_(i < 3, j < k) (if i == 0 then c j else 0) = (pid_mx 1 : 'M_(3, 1)) *m (\row_j c j).
  apply/matrixP => i j; rewrite !mxE big_ord_recl big_ord0 !mxE addr0 /=.
  by case: i => [[|[|[|]]]] //= _; rewrite ?mul0r ?mul1r.
by rewrite (leq_trans (mxrankM_maxl _ _)) // rank_leq_col.
Qed.

Example hutchpp_exact_concrete mode full :
  hval (hutchpp_run (@qr0 3) (Oper hM None) None mode ones full 0%N) 2%:R.
Proof.
have -> : 2%:R = \tr hM :> F by rewrite /mxtrace !big_ord_recl big_ord0 !mxE /= !addr0.
apply: C32_exact_if_rank => //.
- exact: qr0_orth.
- have -> : `|hpp_nb 3 None|%N = 2%N by [].
  exists (\matrix_(i, j) (if i == 0%N :> nat then 9%:R else 0)).
  rewrite hM_sketch; apply/matrixP => i j; rewrite !mxE !big_ord_recl big_ord0 !mxE /= mulr0 !addr0.
  by case: i => [[|[|[|]]]] //= _; rewrite ?mul0r ?mul1r.
- have -> : `|hpp_nb 3 None|%N = 2%N by [].
  rewrite hM_sketch rank1 ?rank1 //; exists 0; by rewrite pnatr_eq0.
Qed.

Example hutchpp_modes_concrete :
  exists x, hval (hutchpp_run (@qr0 3) (Oper hM None) (Some 2) "full" ones true 0%N) x /\
            hval (hutchpp_run (@qr0 3) (Oper hM None) (Some 2) "reduced" ones false 0%N) x.
Proof. exact: C34_modes_agree. Qed.

(* m = 1 gives a sketch of 2 columns; the samples reported are 2 + 3, not 2 + 2 *)
Example hutchpp_samples_concrete :
  hpp_nb 3 (Some 1) = 2 /\
  exists x r s, [/\ hutchpp_run (@qr0 3) (Oper hM None) (Some 1) "reduced" ones true 0%N = Ok (HPair x r),
    hr_samples r = Some s & size s = 5%N].
Proof.
split=> //; have [//|//|x [s1 [s2 [e [h1 h2] _ _ _]]]] := @C34_reported F nat 3 (@qr0 3) hM (Some 1) "reduced" ones 0%N.
by exists x; eexists; eexists; split; [exact: e|by []|rewrite size_cat h1 h2].
Qed.

Example hutchpp_zero_division_concrete :
  hutchpp_run (@qr0 2) (Oper (exM F) None) None "reduced" (fun k g => (nseq k 0, g)) false 0%N = Err ZeroDivisionError.
Proof. by have [//|] := @C31_exceptions F nat 2 (@qr0 2) (Oper (exM F) None) None "reduced" (fun k g => (nseq k 0, g)) false 0%N; case=> _ -> //; left. Qed.

(* 2^53-valued draws, 3 x 3 operator, two probes each for sketch and residual *)
Example hutchpp_unbiased_concrete gauss mode full :
  exists val : seq 'I_(2 ^ 52 + 2 ^ 52) -> F,
   (forall t : (6 + 6).-tuple 'I_(2 ^ 52 + 2 ^ 52), hval (hutchpp_run (@qr0 3) (Oper hM None) None mode
       (iso_sampler (tape_unif (@grid_u (2 ^ 52))) gauss 3 Rademacher) full (t : seq _)) (val t)) /\
   average (6 + 6) val = \tr hM.
Proof.
move: (2 ^ 52)%N double_precision_grid gauss => h d gauss.
have := C33_hutchpp_unbiased (grid_uP d) (@grid_flipK h) (grid_flipP d) (grid_card d) gauss
  (qrQ := @qr0 3) hM (m := None) mode full (L := 6).
by apply => // Y; exact: qr0_orth.
Qed.

(* R = [[2,3],[0,4]], built column by column *)
Example trinv_concrete : exists Bi, built (\matrix_(i, j) (if (i <= j)%N then (i + j + 2)%:R else 0) : 'M[F]_2) Bi.
Proof.
by apply: C35_insertion_complete => [i j|i]; rewrite mxE; [rewrite ltnNge => /negPf ->|rewrite leqnn pnatr_eq0 addn2].
Qed.
End Examples.
Print Assumptions C31_sketch_divisible_iff.
Print Assumptions C31_sketch_divisible_refuted.
Print Assumptions C31_exceptions.
Print Assumptions C34_modes_agree.
Print Assumptions C34_reported.
Print Assumptions C34_samples_refuted.
Print Assumptions C32_exact_if_range_captured.
Print Assumptions C32_exact_if_rank.
Print Assumptions C32_exact_if_square.
Print Assumptions C33_hutchpp_unbiased_given_sketch.
Print Assumptions C33_hutchpp_unbiased.
Print Assumptions C35_update_trinv_inverse.
Print Assumptions C35_update_trinv_shapes.
Print Assumptions C35_insertion_sequence.
Print Assumptions C35_insertion_complete.
