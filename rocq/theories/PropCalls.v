(* C102: which vectors the estimators ask an operator object to multiply, in which order,
   and how many products that is. *)
From Coq Require Import String.
From mathcomp Require Import all_ssreflect all_algebra zify.
From mathcomp Require Import complex.
From Verif Require Import Base Spec ModelStats LemStats ModelEstimators LemEstimators LemEst2 ModelTyping ModelRandom ModelTrace
  ModelHutchpp ModelXtrace LemXtrace LemXrun PropXtrace LemTrace PropTrace PropDiag ModelLanczos ModelTqli ModelQuadrature ModelSpecial ModelOperators ModelSLQ ModelToeplitz ModelOpApps LemOpApps.
Set Implicit Arguments.
Unset Strict Implicit.
Unset Printing Implicit Defensive.
Import Order.TTheory GRing.Theory Num.Theory.
Local Open Scope ring_scope.

Section Calls.
Variable F : rcfType.
Variable G : Type.
Variable unif : G -> rat * G.
Variable gauss : G -> F * G.
Variables (tppf : F -> nat -> F) (zq : F -> F).
Variable N : nat.
Variable S : Type.

(* ---- specification: the same object, keeping a list of the calls made on it ------------ *)
Inductive call : Type := CMv of 'cV[F]_N | CRmv of 'cV[F]_N | CQuad of 'cV[F]_N.
Definition noted T (tag : 'cV[F]_N -> call) (f : S -> 'cV[F]_N -> outcome (T * S)) (x : S * seq call) (v : 'cV[F]_N)
  : outcome (T * (S * seq call)) :=
  match f x.1 v with
  | Ret (u, s') => Ret (u, (s', rcons x.2 (tag v)))
  | Undef => Undef | NonFin => NonFin | Raise e => Raise e
  end.
Definition watch (A : linop F N S) : linop F N (S * seq call) :=
  LinOp (noted CMv (l_mv A)) (noted CRmv (l_rmv A))
        (if l_quad A is Some q then Some (noted CQuad q) else None).
(* quad_form(v) calls A.quad if there is one and A.matvec otherwise *)
Definition form_tag (A : linop F N S) : 'cV[F]_N -> call := if l_quad A is Some _ then CQuad else CMv.
(* the outcome of a run, with the calls `cs` of a normal return appended to the list l *)
Definition adding T (l : seq call) (cs : T -> seq call) (o : outcome (T * S)) : outcome (T * (S * seq call)) :=
  match o with
  | Ret (x, s') => Ret (x, (s', l ++ cs x))
  | Undef => Undef | NonFin => NonFin | Raise e => Raise e
  end.
Definition columns k (X : 'M[F]_(N, k)) : seq 'cV[F]_N := [seq col j X | j <- enum 'I_k].

Implicit Types (s : S) (l : seq call) (v : 'cV[F]_N) (g : G) (A : linop F N S).

Lemma each_noted T tag (f : S -> 'cV[F]_N -> outcome (T * S)) vs s l :
  each (noted tag f) (s, l) vs = adding l (fun=> map tag vs) (each f s vs).
Proof.
elim: vs s l => [|v vs IH] s l; first by rewrite /= cats0.
rewrite /= /noted /=; case: (f s v) => [||e|[u s1]] //=; rewrite -/(noted tag f) IH.
by case: (each f s1 vs) => [||e|[us s2]] //=; rewrite cat_rcons.
Qed.

Lemma matmat_noted tag (f : S -> 'cV[F]_N -> outcome ('cV[F]_N * S)) k (X : 'M[F]_(N, k)) s l :
  matmat (noted tag f) (s, l) X = adding l (fun=> map tag (columns X)) (matmat f s X).
Proof. by rewrite /matmat; case: ifP => // _; rewrite each_noted /columns; case: (each f s _) => [||e|[us s2]]. Qed.

Lemma forms_watch A s l k vs : forms (watch A) (s, l) k vs = adding l (fun=> map (form_tag A) vs) (forms A s k vs).
Proof.
rewrite /forms /watch /form_tag /=; case: (l_quad A) => [q|]; first exact: each_noted.
by case: ifP => // _; rewrite each_noted; case: (each (l_mv A) s vs) => [||e|[us s2]].
Qed.

(* ---- hutch ------------------------------------------------------------------------------ *)
Lemma hutch_loop_watch A fuel (c : crit F) (sample : sampler F G N) b nt l st s :
  oloop fuel (fun x => loop_test tppf zq c x.1) (ohutch_body (watch A) sample b nt) (st, (s, l ++ map (form_tag A) (lo_probes st))) =
  omap (adding l (fun st' => map (form_tag A) (lo_probes st')))
    (oloop fuel (fun x => loop_test tppf zq c x.1) (ohutch_body A sample b nt) (st, s)).
Proof.
elim: fuel st s => [//|fuel IH] st s /=; case: (loop_test _ _ _ _) => [[]|e] //.
case: ifP => // b0; case Es: (sample _ _) => [vs g']; rewrite forms_watch.
case: (forms A s _ vs) => [||e|[qs s']] //=; case: (mest_update _ _) => est' [e|] //=.
by rewrite -catA -map_cat -IH.
Qed.

(* every probe costs one call (of quad if the object has it, of matvec otherwise), the calls
   are made in the order of the draws, and nothing else is asked of the object *)
Theorem C102_hutch A fuel s l (batch : int) (sample : sampler F G N) (c : crit F) (record full callback : bool) g :
  ohutch tppf zq (watch A) fuel (s, l) batch sample c record full callback g =
  omap (adding l (fun x => map (form_tag A) (run_probes x)))
    (ohutch tppf zq A fuel s batch sample c record full callback g).
Proof.
rewrite /ohutch; case: ifP => _; first by rewrite /= cats0.
set st0 := LState _ _ _ _.
have E b nt : oloop fuel (fun x => loop_test tppf zq c x.1) (ohutch_body (watch A) sample b nt) (st0, (s, l)) =
  omap (adding l (fun st' => map (form_tag A) (lo_probes st')))
    (oloop fuel (fun x => loop_test tppf zq c x.1) (ohutch_body A sample b nt) (st0, s)).
  by rewrite -hutch_loop_watch /= cats0.
by case: ifP => _; rewrite E; case: (oloop _ _ _ _) => [[||e|[st' s']]|].
Qed.

(* ---- diag ------------------------------------------------------------------------------- *)
Lemma diag_loop_watch A fuel (c : crit F) (sample : sampler F G N) nt l st s :
  oloop fuel (fun x => diag_test tppf zq c x.1) (odiag_body (watch A) sample nt) (st, (s, l ++ map CMv (ds_probes st))) =
  omap (adding l (fun st' => map CMv (ds_probes st')))
    (oloop fuel (fun x => diag_test tppf zq c x.1) (odiag_body A sample nt) (st, s)).
Proof.
elim: fuel st s => [//|fuel IH] st s /=; case: (diag_test _ _ _ _) => [[]|e] //.
case Es: (sample _ _) => [vs g']; rewrite /noted /=.
case: (l_mv A s _) => [||e|[u s']] //=; case: (mest_update _ _) => est' [e|] //=.
by rewrite -IH /= map_rcons rcons_cat.
Qed.

Theorem C102_diag A fuel s l (sample : sampler F G N) (c : crit F) (full callback record : bool) g :
  odiag tppf zq (watch A) fuel (s, l) sample c full callback record g =
  omap (adding l (fun x => map CMv (run_probes x)))
    (odiag tppf zq A fuel s sample c full callback record g).
Proof.
rewrite /odiag; case: ifP => _; first by rewrite /= cats0.
set st0 := DState _ _ _ _ _ _.
have -> : oloop fuel (fun x => diag_test tppf zq c x.1) (odiag_body (watch A) sample callback) (st0, (s, l)) =
  omap (adding l (fun st' => map CMv (ds_probes st')))
    (oloop fuel (fun x => diag_test tppf zq c x.1) (odiag_body A sample callback) (st0, s)).
  by rewrite -diag_loop_watch /= cats0.
by case: (oloop _ _ _ _) => [[||e|[st' s']]|].
Qed.

(* ---- hutchpp ---------------------------------------------------------------------------- *)
Lemma columns_mat k (vs : seq 'cV[F]_N) : size vs = k -> columns (mat_of_cols k vs) = vs.
Proof.
move=> sv; apply: (@eq_from_nth _ 0); first by rewrite size_map size_enum_ord sv.
move=> i; rewrite size_map size_enum_ord => ik.
rewrite (nth_map (Ordinal ik)) ?size_enum_ord //; apply/colP => a; rewrite !mxE.
by rewrite nth_enum_ord.
Qed.

Lemma size_columns k (X : 'M[F]_(N, k)) : size (columns X) = k.
Proof. by rewrite size_map size_enum_ord. Qed.

Lemma size_tagged k (X : 'M[F]_(N, k)) (tag : 'cV[F]_N -> call) : size (map tag (columns X)) = k.
Proof. by rewrite size_map size_columns. Qed.

Lemma matmat_inv f s k (X : 'M[F]_(N, k)) Y s' : matmat f s X = Ret (Y, s') ->
  (0 < k)%N /\ exists us, each f s (columns X) = Ret (us, s') /\ Y = mat_of_cols k us.
Proof.
rewrite /matmat lt0n; case: ifP => // /negbT k0; rewrite /columns; case: (each f s _) => [||e|[us s2]] //= -[<- <-].
by split=> //; exists us.
Qed.

Variable qrQ : forall k, 'M[F]_(N, k) -> 'M[F]_(N, minn N k).

(* The k sketch vectors, the min(N,k) columns of Q and the k deflated vectors are multiplied,
   in this order; Q is the orthonormal factor of the products of the sketch. *)
Theorem C102_hutchpp A s l (m : option int) mode (sample : sampler F G N) (full : bool) g out s' :
  (0 < N)%N -> sample_ok sample ->
  ohutchpp A qrQ s m mode sample full g = Ret (out, s') ->
  let k := `|hpp_nb N m|%N in
  let ws := (sample k g).1 in
  let W := mat_of_cols k (sample k (sample k g).2).1 in
  let tag := if (mode =? "full")%string then CMv else form_tag A in
  exists ys s1 Q, [/\ each (l_mv A) s ws = Ret (ys, s1), Q = qrQ (mat_of_cols k ys) &
    ohutchpp (watch A) qrQ (s, l) m mode sample full g =
    Ret (out, (s', l ++ (map CMv ws ++ map tag (columns Q) ++ map CMv (columns (W - Q *m (Q^T *m W))))))].
Proof.
move=> N0 ok; rewrite /ohutchpp [N == 0%N]eqn0Ngt N0 /=; case: ifP => // nb0.
set k := `|_|%N; case Es: (sample k g) => [ws g1] /=; case Es2: (sample k g1) => [gs g2] /=.
have sw : size ws = k by rewrite -(ok k g) Es.
rewrite matmat_noted; case E1: (matmat _ _ _) => [||e|[Y s1]] //=.
have [k0 [us []]] := matmat_inv E1; rewrite columns_mat // => Eus eY.
set o := (if _ then obnd _ _ else _); set o' := (if (mode =? "full")%string then obnd _ _ else _).
have Eo : o' = adding (l ++ map CMv ws) (fun=> map (if (mode =? "full")%string then CMv else form_tag A) (columns (qrQ Y))) o.
  rewrite /o' /o; case: ifP => _; first by rewrite matmat_noted; case: (matmat _ _ _) => [||e|[? ?]].
  rewrite /form_tag; case: (l_quad A) => [q|]; first exact: each_noted.
  by rewrite each_noted /columns; case: (each (l_mv A) s1 _) => [||e|[? ?]].
rewrite Eo; case: o {Eo o'} => [||e|[rs s2]] //=.
rewrite matmat_noted; case E3: (matmat _ _ _) => [||e|[Z s3]] //=.
have qE : isSome (if l_quad A is Some q then Some (noted CQuad q) else None) = isSome (l_quad A) by case: (l_quad A).
rewrite qE; case: full; first (case: ifP => // _); move=> [<- <-]; exists us, s1, (qrQ Y); split; rewrite -?eY //; by rewrite -!catA.
Qed.

(* The number of products is 2 k + min(N, k) with k = m + m mod 3 *)
Lemma hpp_calls A s (m : option int) mode (sample : sampler F G N) (full : bool) g out s' :
  (0 < N)%N -> sample_ok sample -> ohutchpp A qrQ s m mode sample full g = Ret (out, s') ->
  exists l', ohutchpp (watch A) qrQ (s, [::]) m mode sample full g = Ret (out, (s', l')) /\
             size l' = (2 * `|hpp_nb N m| + minn N `|hpp_nb N m|)%N.
Proof.
move=> N0 ok H; have [ys [s1 [Q [_ _ ->]]]] := C102_hutchpp [::] N0 ok H.
eexists; split; first by [].
by rewrite /= !size_cat !size_tagged size_map ok mul2n -addnn -addnA [(minn N _ + _)%N]addnC.
Qed.

(* "m: number of matvecs to use" (trace.py 132) is false for every m: more than twice as many
   are used, and exactly three times as many if 3 divides m and m <= N. *)
Theorem C102_hutchpp_budget_refuted A s (m : nat) mode (sample : sampler F G N) (full : bool) g out s' :
  (0 < N)%N -> sample_ok sample -> ohutchpp A qrQ s (Some m%:Z) mode sample full g = Ret (out, s') ->
  exists l', [/\ ohutchpp (watch A) qrQ (s, [::]) (Some m%:Z) mode sample full g = Ret (out, (s', l')),
    (2 * m < size l')%N, (size l' <= 3 * (m + 2))%N & (3 %| m)%N -> (m <= N)%N -> size l' = (3 * m)%N].
Proof.
move=> N0 ok H; have [l' [E sz]] := hpp_calls N0 ok H; exists l'.
have nb : `|hpp_nb N (Some m%:Z)|%N = (m + m %% 3)%N by rewrite /hpp_nb modz_nat -PoszD absz_nat.
have m0 : (0 < m)%N.
  rewrite lt0n; apply/eqP => m0; move: H; rewrite /ohutchpp [N == 0%N]eqn0Ngt N0 m0 /=.
  by case: (sample _ _) => ws g1; rewrite /matmat.
rewrite nb in sz; rewrite sz; split=> //.
- by have : (0 < minn N (m + m %% 3))%N by [rewrite leq_min N0 addn_gt0 m0]; lia.
- have := geq_minr N (m + m %% 3)%N; have : (m %% 3 < 3)%N by rewrite ltn_mod.
  move: (m %% 3)%N (minn _ _) => a b; lia.
- by rewrite /dvdn => /eqP -> mN; rewrite addn0 (minn_idPr mN) -mulSnr.
Qed.

(* ---- xdiag ------------------------------------------------------------------------------ *)
Variable qr : forall k, 'M[F]_(N, k) -> 'M[F]_(N, k) * 'M[F]_k.

Theorem C102_xdiag A s l (m : option int) (sample : sampler F G N) g out s' :
  sample_ok sample -> oxdiag A qr s m sample g = Ret (out, s') ->
  let k := `|xdiag_m N m|%N in
  exists ys s1, [/\ size (xd_probes out) = k, each (l_mv A) s (xd_probes out) = Ret (ys, s1) &
    oxdiag (watch A) qr (s, l) m sample g =
    Ret (out, (s', l ++ (map CMv (xd_probes out) ++ map CRmv (columns (qr (mat_of_cols k ys)).1))))].
Proof.
move=> ok; rewrite /oxdiag; case: ifP => // mm0; set k := `|_|%N; case Es: (sample k g) => [vs g'].
have sv : size vs = k by rewrite -(ok k g) Es.
rewrite matmat_noted; case E1: (matmat _ _ _) => [||e|[Y s1]] //=.
have [k0 [us []]] := matmat_inv E1; rewrite columns_mat // => Eus eY.
case Eq: (qr Y) => [Q R]; rewrite matmat_noted; case E2: (matmat _ _ _) => [||e|[Z s2]] //=.
case: ifP => // _ [<- <-] /=; exists us, s1; split=> //; by rewrite -eY Eq -catA.
Qed.

(* "using m / 2 matrix-vector multiplications" (diagonal.py 102): m / 2 products with A and
   as many with its transpose, together never fewer than m *)
Theorem C102_xdiag_budget_refuted A s (m : nat) (sample : sampler F G N) g out s' :
  sample_ok sample -> (0 < m)%N -> (m <= 2 * N)%N -> oxdiag A qr s (Some m%:Z) sample g = Ret (out, s') ->
  exists l', [/\ oxdiag (watch A) qr (s, [::]) (Some m%:Z) sample g = Ret (out, (s', l')),
    (m <= size l')%N, (m %/ 2 < size l')%N & ~~ odd m -> size l' = m].
Proof.
move=> ok m0 mN /(C102_xdiag [::] ok) [ys [s1 [sp _ ->]]]; eexists; split; first by [].
all: rewrite /= size_cat size_tagged size_map sp /xdiag_m modz_nat -PoszD.
all: have -> : Num.min (Posz (m + m %% 2)) (2 * Posz N) = Posz (m + m %% 2) :> int
  by [apply/min_idPl; rewrite -[2]/(Posz 2) -PoszM lez_nat; move: mN; rewrite modn2; lia].
all: rewrite divz_nat absz_nat addnn -mul2n modn2; by [lia | move: m0; lia | move=> /negbTE ->; lia].
Qed.

(* ---- xtrace ----------------------------------------------------------------------------- *)
Variable qr_insert : forall k, 'M[F]_(N, k) -> 'M[F]_k -> 'cV[F]_N -> 'M[F]_(N, k + 1) * 'M[F]_(k + 1).

(* what the loop of xtrace keeps about the state, whatever the object returns *)
Record xshape (st : xstate F G N) : Prop := XShape {
  xh_W : nd_c (xs_W st) = size (xs_probes st);
  xh_fac : shaped (size (xs_probes st)) (xs_fac st);
  xh_n : ms_n (xs_est st) = size (xs_probes st);
  xh_le : (size (xs_probes st) <= N)%N
}.

(* per batch: the new probes vs, then the new columns qs of Q, as many as probes *)
Definition batch_calls (x : seq 'cV[F]_N * seq 'cV[F]_N) : seq call := map CMv x.1 ++ map CMv x.2.

Lemma xbody_watch A b r nt (sample : sampler F G N) st s l : sample_ok sample -> xshape st -> (size (xs_probes st) < N)%N -> (0 < b)%N ->
  match oxtrace_body A qr_insert b%:Z sample r nt (st, s) with
  | Ret (st', s') => exists vs qs,
     [/\ oxtrace_body (watch A) qr_insert b%:Z sample r nt (st, (s, l)) = Ret (st', (s', l ++ batch_calls (vs, qs))),
         xs_probes st' = xs_probes st ++ vs, size vs = minn (N - size (xs_probes st)) b, size qs = size vs & xshape st']
  | _ => True
  end.
Proof.
move=> ok [hW hf hn hle] kn b0; rewrite /oxtrace_body hW; set k := size _ in hW hf hn hle kn *.
rewrite absz_nat; set ns := minn _ b; have ns0 : (0 < ns)%N by rewrite leq_min subn_gt0 kn.
have kns : (k + ns <= N)%N by rewrite -[X in (_ <= X)%N](subnKC hle) leq_add2l geq_minl.
case Es: (sample ns (xs_gen st)) => [vs g']; have sv : size vs = ns by rewrite -(ok ns (xs_gen st)) Es.
rewrite matmat_noted; case E1: (matmat _ _ _) => [||e|[Y s1]] //=.
have [fac [ef shf]] := insert_cols_shape qr_insert [seq col j Y | j <- enum 'I_ns] hf.
rewrite ef; case: fac ef shf => -[q rr] ri ef shf; have [sq _ _] := shf.
rewrite matmat_noted; case E2: (matmat _ _ _) => [||e|[Z s2]] //=.
set u := [seq _ | _ <- _].
have su : size u = (k + ns)%N by rewrite size_map size_enum_ord hW.
have gb : good_batch 1 (Arr1 u).
  by rewrite /good_batch /cols_of /rows_of /= !size_map; rewrite -enumT size_enum_ord hW addn_gt0 ns0 orbT.
rewrite mest_init_of mest_update_good //=; exists vs, (columns (to_mx N (nd_c (last_cols ns q)) (last_cols ns q))).
have cq : nd_c q = (k + ns)%N by rewrite sq size_map size_enum_ord.
split=> //.
- by rewrite columns_mat // -catA.
- by rewrite size_columns /= cq eqn0Ngt ns0 addnK addKn sv.
- split; rewrite /= ?size_cat ?sv ?hW //; first by move: shf; rewrite size_map size_enum_ord.
  by rewrite /rows_of /= size_map su.
Qed.

Lemma oloopS T fuel (test : T -> res bool) body (st : T) : oloop fuel.+1 test body st =
  match test st with
  | Err e => Some (Raise e)
  | Ok true => Some (Ret st)
  | Ok false => match body st with
                | Ret st' => oloop fuel test body st'
                | Undef => Some Undef | NonFin => Some NonFin | Raise e => Some (Raise e)
                end
  end.
Proof. by []. Qed.

Lemma xloop_watch A b r nt (sample : sampler F G N) c fuel st s l : sample_ok sample -> (0 < b)%N -> xshape st ->
  (c = CCount F N%:Z \/ c = COr (CCount F N%:Z) (CCount F N%:Z)) ->
  match oloop fuel (fun x => xtrace_test tppf zq c x.1) (oxtrace_body A qr_insert b%:Z sample r nt) (st, s) with
  | Some (Ret (st', s')) => exists bs : seq (seq 'cV[F]_N * seq 'cV[F]_N),
     [/\ oloop fuel (fun x => xtrace_test tppf zq c x.1) (oxtrace_body (watch A) qr_insert b%:Z sample r nt) (st, (s, l))
           = Some (Ret (st', (s', l ++ flatten (map batch_calls bs)))),
         xs_probes st' = xs_probes st ++ flatten (map fst bs),
         all (fun x => (0 < size x.1 <= b)%N) bs, all (fun x => size x.2 == size x.1) bs & size (xs_probes st') = N]
  | _ => True
  end.
Proof.
move=> ok b0 + hc; elim: fuel st s l => [//|fuel IH] st s l sh; rewrite !oloopS ![(st, _).1]/=.
have -> : xtrace_test tppf zq c st = Ok (N <= size (xs_probes st))%N.
  by rewrite /xtrace_test; case: hc => -> /=; rewrite /count_call /= (xh_n sh) ?orbb lez_nat.
case: leqP => kn.
  by exists [::]; rewrite /= !cats0; split=> //; apply/eqP; rewrite eqn_leq (xh_le sh).
have := @xbody_watch A b r nt sample st s l ok sh kn b0.
case: (oxtrace_body A _ _ _ _ _ _) => [||e|[st1 s1]] // [vs [qs [-> ep sv sq sh1]]].
have := IH st1 s1 (l ++ batch_calls (vs, qs)) sh1.
case: (oloop _ _ _ _) => [[||e|[st2 s2]]|] // [bs [-> ep2 a1 a2 sN]].
exists ((vs, qs) :: bs); split=> //=; rewrite -?catA //; first by rewrite ep2 ep -catA.
  by rewrite a1 sv geq_minr leq_min subn_gt0 kn b0.
by rewrite a2 sq eqxx.
Qed.

(* A run of xtrace multiplies each batch of probes and then as many columns of Q; it ends after
   exactly 2 N products, whatever the object, the batch size and the criterion. *)
Theorem C102_xtrace A fuel s l (batch : int) (p : pdfarg F G) (sample : sampler F G N) (c : carg F) (kw : kwargs (pyarg F))
  (record full callback : bool) g out s' :
  hutch_pdf unif gauss N p = Ok sample -> sample_ok sample ->
  oxtrace unif gauss tppf zq A qr_insert fuel s batch p c kw record full callback g = Some (Ret (out, s')) ->
  exists bs : seq (seq 'cV[F]_N * seq 'cV[F]_N),
  [/\ oxtrace unif gauss tppf zq (watch A) qr_insert fuel (s, l) batch p c kw record full callback g
        = Some (Ret (out, (s', l ++ flatten (map batch_calls bs)))),
      run_probes out = flatten (map fst bs),
      all (fun x => (0 < size x.1 <= `|batch|)%N && (size x.2 == size x.1)) bs,
      size (run_probes out) = N & size (flatten (map batch_calls bs)) = (2 * N)%N].
Proof.
move=> hp ok; rewrite /oxtrace; case: ifP => // /negbFE hb.
have [cr [-> hc]] := criterion_cases N c kw; rewrite hp.
have b0 : (0 < `|batch|)%N by rewrite absz_gt0 gt_eqF // (lt_le_trans ltr01).
have eb : batch = `|batch|%N%:Z by rewrite gtz0_abs // (lt_le_trans ltr01).
rewrite eb absz_nat.
have sh0 : xshape (xtrace_init F N record g) by split; rewrite //= /mest_init; case: record.
have := @xloop_watch A `|batch|%N record callback sample cr fuel _ s l ok b0 sh0 hc.
case: (oloop _ _ _ _) => [[||e|[st1 s1]]|] // [bs [-> ep a1 a2 sN]] [<- <-].
exists bs; split=> //; first by rewrite all_predI; apply/andP.
rewrite ep in sN; transitivity (2 * size (flatten (map fst bs)))%N; last by congr (2 * _)%N.
move: a2; clear; elim: bs => //= x bs IH /andP[/eqP h /IH].
by rewrite !size_cat !size_map h; move: (size x.1) (size _) (size _) => a b c; lia.
Qed.
End Calls.


(* ---- concrete cases ---------------------------------------------------------------------- *)
Section Cases.
Variable F : rcfType.
Variable G : Type.
Variable unif : G -> rat * G.
Variable gauss : G -> F * G.
Variables (tppf : F -> nat -> F) (zq : F -> F).

(* a matrix whose object counts its calls *)
Definition tally_mv N (B : 'M[F]_N) (s : nat) (v : 'cV[F]_N) : outcome ('cV[F]_N * nat) := Ret (B *m v, s.+1).
Definition tally N (B : 'M[F]_N) : linop F N nat := LinOp (tally_mv B) (tally_mv B^T) None.
Lemma tally_acts N (B : 'M[F]_N) : computes (fun _ : nat => True) (fun=> True) (l_mv (tally B)) (mulmx B).
Proof. by move=> s v _ _; exists s.+1. Qed.

(* hutch in batches of 2 up to 3 samples: 4 products *)
Example hutch_tally N (B : 'M[F]_N) (sample : sampler F G N) g : (0 < N)%N -> sample_ok sample ->
  exists out s' l, ohutch tppf zq (watch (tally B)) 3 (0%N, [::]) 2 sample (CCount F 3) false true false g = Some (Ret (out, (s', l))) /\
  l = map (@CMv F N) (run_probes out) /\ size l = 4%N.
Proof.
move=> N0 ok; have [out [Eo [so _ _]]] := @C22_count_draws F G tppf zq N 3 (Oper B None) 2 sample 3 false true false g ok N0 isT isT.
have := @hutch_sim F G tppf zq N nat (fun=> True) (tally B) B (fun=> True) (fun _ => @tally_acts N B) I sample (fun _ _ _ _ => I)
  3 0%N 2 (CCount F 3) false true false g I (fun _ => isT).
rewrite Eo C102_hutch; case: (ohutch _ _ _ _ _ _ _ _ _ _ _ _) => [o|//] [s' [-> _]].
by exists out, s', (map (@CMv F N) (run_probes out)); split=> //; split=> //; rewrite size_map so.
Qed.

Example diag_tally N (B : 'M[F]_N) (sample : sampler F G N) g : (0 < N)%N -> sample_ok sample ->
  exists out s' l, odiag tppf zq (watch (tally B)) 4 (0%N, [::]) sample (CCount F 3) true false false g = Some (Ret (out, (s', l))) /\
  l = map (@CMv F N) (run_probes out) /\ size l = 3%N.
Proof.
move=> N0 ok; have [out [Eo so]] := @C81_diag_count F G tppf zq N 4 B sample 3 true false false g ok N0 isT.
have := @diag_sim F G tppf zq N nat (fun=> True) (tally B) B (fun=> True) (@tally_acts N B) sample (fun _ => I)
  4 0%N (CCount F 3) true false false g I.
rewrite Eo C102_diag; case: (odiag _ _ _ _ _ _ _ _ _ _ _) => [o|//] [s' [-> _]].
by exists out, s', (map (@CMv F N) (run_probes out)); split=> //; split=> //; rewrite size_map so.
Qed.

Example xtrace_tally N (B : 'M[F]_N) qr_insert p (sample : sampler F G N) c kw g : hutch_pdf unif gauss N p = Ok sample -> sample_ok sample ->
  exists out s', oxtrace unif gauss tppf zq (tally B) qr_insert N.+1 0%N 1 p c kw false true false g = Some (Ret (out, s')).
Proof.
move=> hp ok; have [|out [Eo so _]] := @C37_n_probes F G unif gauss tppf zq N qr_insert N.+1 B 1 p sample c kw false true false g (conj hp ok) isT.
  by rewrite /ceil_div /= addn0 divn1.
have := @xtrace_sim F G unif gauss tppf zq N nat (fun=> True) (tally B) B (fun=> True) (@tally_acts N B) qr_insert N.+1 0%N 1 p sample
  c kw false true false g hp ok I (fun _ _ => I).
by rewrite Eo; case: (oxtrace _ _ _ _ _ _ _ _ _ _ _ _ _ _ _ _) => [o|//] [s' [-> _]]; exists out, s'.
Qed.

(* hutchpp with m = 3 on an operator of size 4: nine products *)
Definition unit_probes N : sampler F unit N := fun k g => (nseq k (const_mx 1), g).
Example hutchpp_tally (B : 'M[F]_4) qrQ : exists out s', ohutchpp (tally B) qrQ 0%N (Some 3) "reduced" (@unit_probes 4) true tt = Ret (out, s').
Proof.
have := @hpp_sim F unit 4 nat (fun=> True) (tally B) B (fun=> True) (@tally_acts 4 B) I qrQ (@unit_probes 4) 0%N (Some 3) "reduced" true tt
  I isT (fun _ _ => I) (fun _ => or_intror erefl).
by rewrite /hutchpp_run /=; case=> s' [-> _]; eexists; exists s'.
Qed.

(* xdiag with m = 4: two products with the operator, two with its transpose *)
Definition qr_id k (Y : 'M[F]_(4, k)) : 'M[F]_(4, k) * 'M[F]_k := (Y, 1%:M).
Example xdiag_tally (B : 'M[F]_4) : exists out s', oxdiag (tally B) qr_id 0%N (Some 4) (@unit_probes 4) tt = Ret (out, s').
Proof.
have := @xdiag_sim F unit 4 nat (fun=> True) (tally B) B (fun=> True) (@tally_acts 4 B) _ qr_id (@unit_probes 4) 0%N (Some 4) tt I isT (fun _ _ => I).
rewrite /xdiag_run /= unitmx1 /=; case; first by move=> s v _ _; exists s.+1.
by move=> s' [-> _]; eexists; exists s'.
Qed.
End Cases.

Print Assumptions C102_hutch.
Print Assumptions C102_diag.
Print Assumptions C102_hutchpp.
Print Assumptions C102_hutchpp_budget_refuted.
Print Assumptions C102_xdiag.
Print Assumptions C102_xdiag_budget_refuted.
Print Assumptions C102_xtrace.
