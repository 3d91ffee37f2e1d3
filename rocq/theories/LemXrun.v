(* Runs of xtrace: the incremental factorisation and the loop. *)
From Coq Require Import String.
From mathcomp Require Import all_ssreflect all_algebra zify ring.
From Verif Require Import Base Spec ModelStats LemStats ModelEstimators LemEstimators ModelTyping ModelRandom
  ModelTrace LemTrace PropTrace ModelHutchpp PropHutchpp ModelXtrace LemXtrace.
Set Implicit Arguments.
Unset Strict Implicit.
Unset Printing Implicit Defensive.
Import Order.TTheory GRing.Theory Num.Theory.
Local Open Scope ring_scope.

(* a loop with a measure that counts the remaining iterations *)
Section Measure.
Variables (S : Type) (test : S -> res bool) (body : S -> res S) (inv : S -> Prop) (mu : S -> nat).
Hypothesis testP : forall st, inv st -> test st = Ok (mu st == 0%N).
Hypothesis bodyP : forall st, inv st -> (0 < mu st)%N -> exists st', [/\ body st = Ok st', inv st' & (mu st').+1 = mu st].

Lemma while_measure f st : inv st -> (mu st < f)%N ->
  exists st', [/\ while_not f test body st = Some (Ok st'), inv st' & mu st' = 0%N].
Proof.
elim: f st => [//|f IH] st hi hf /=; rewrite testP //; case: eqP => [e|/eqP h]; first by exists st.
have [|st' [-> hi' e]] := bodyP hi; first by rewrite lt0n.
by apply: IH => //; rewrite -ltnS e.
Qed.

Lemma while_measure_some f st out : inv st -> while_not f test body st = Some out ->
  exists st', [/\ out = Ok st', inv st', mu st' = 0%N & (mu st < f)%N].
Proof.
elim: f st => [//|f IH] st hi /=; rewrite testP //; case: eqP => [e [<-]|/eqP h]; first by exists st; rewrite e.
have [|st' [-> hi' e] h1] := bodyP hi; first by rewrite lt0n.
by have [st2 [-> h2 h3 h4]] := IH _ hi' h1; exists st2; split=> //; rewrite -e.
Qed.
End Measure.

Lemma while_ext (S : Type) (test test' : S -> res bool) body f st : (forall s, test s = test' s) ->
  while_not f test body st = while_not f test' body st.
Proof.
move=> h; elim: f st => [//|f IH] st /=; rewrite h; case: (test' st) => // -[//|].
by case: (body st).
Qed.

Section Arr.
Variable F : rcfType.
Lemma to_of_mx r c (M : 'M[F]_(r, c)) : to_mx r c (of_mx M) = M.
Proof. by apply/matrixP => i j; rewrite mxE /= !valK. Qed.

Lemma to_mx_le r c c' (le : (c <= c')%N) (a : nd F) i j :
  to_mx r c a i j = to_mx r c' a i (widen_ord le j).
Proof. by rewrite !mxE. Qed.

Lemma mat_of_cols_eq n k (a b : seq 'cV[F]_n) : (forall j, (j < k)%N -> nth 0 a j = nth 0 b j) ->
  mat_of_cols k a = mat_of_cols k b.
Proof. by move=> h; apply/matrixP => i j; rewrite !mxE h. Qed.

Lemma col_mat_of_cols n k (a : seq 'cV[F]_n) (j : 'I_k) : col j (mat_of_cols k a) = nth 0 a j.
Proof. by apply/colP => i; rewrite !mxE. Qed.

Lemma mul_mat_of_cols n k (A : 'M[F]_n) (a : seq 'cV[F]_n) : (k <= size a)%N ->
  A *m mat_of_cols k a = mat_of_cols k [seq A *m v | v <- a].
Proof.
move=> h; apply/matrixP => i j; rewrite !mxE (nth_map 0) ?(leq_trans _ h) // mxE.
by apply: eq_bigr => l _; rewrite mxE.
Qed.

Lemma mat_of_cols_rcons n (ys : seq 'cV[F]_n) u :
  mat_of_cols (size ys + 1) (rcons ys u) = row_mx (mat_of_cols (size ys) ys) u.
Proof.
apply/matrixP => i j; rewrite !mxE nth_rcons; case: splitP => l e.
  by rewrite mxE e.
by rewrite e !ord1 addn0 eqxx.
Qed.
End Arr.

Section Insert.
Variable F : rcfType.
Variable n : nat.
Variable qr_insert : forall k, 'M[F]_(n, k) -> 'M[F]_k -> 'cV[F]_n -> 'M[F]_(n, k + 1) * 'M[F]_(k + 1).
Local Notation insert1 := (insert1 qr_insert).
Local Notation insert_cols := (insert_cols qr_insert).
Implicit Types (s : nd F * nd F * nd F) (ys us : seq 'cV[F]_n).

Definition shaped k s : Prop := let: (q, r, ri) := s in [/\ nd_c q = k, nd_r ri = k & nd_c ri = k].

Lemma insert1_shape k s u : shaped k s -> exists s', insert1 u s = Ok s' /\ shaped (k + 1) s'.
Proof.
case: s => -[q r] ri [eq er ec]; rewrite /ModelXtrace.insert1.
rewrite eq er ec; case: (qr_insert _ _ _) => Q' R'.
rewrite /update_trinv; case: eqP => // e1; case: eqP => // e2 /=.
by eexists; split; [by []|split].
Qed.

Lemma insert_cols_shape k s us : shaped k s -> exists s', insert_cols us s = Ok s' /\ shaped (k + size us) s'.
Proof.
elim: us k s => [|u us IH] k s h /=; first by exists s; rewrite addn0.
have [s1 [-> h1]] := insert1_shape u h.
by have [s2 [e2 h2]] := IH _ _ h1; exists s2; split=> //; move: h2; rewrite -addnA add1n.
Qed.

(* s holds a QR factorisation of the first k columns of ys and R's inverse *)
Definition qr_good k s ys : Prop := let: (q, r, ri) := s in
  [/\ shaped k s, (to_mx n k q)^T *m to_mx n k q = 1%:M,
      to_mx n k q *m to_mx k k r = mat_of_cols k ys &
      to_mx k k ri *m to_mx k k r = 1%:M].

(* the first k columns of ys are linearly independent *)
Definition linv k ys : Prop := exists L : 'M[F]_(k, n), L *m mat_of_cols k ys = 1%:M.

Lemma linv_le k k' ys : (k' <= k)%N -> linv k ys -> linv k' ys.
Proof.
move=> le [L e]; exists (\matrix_(i, j) L (widen_ord le i) j); apply/matrixP => i j.
have /matrixP/(_ (widen_ord le i) (widen_ord le j)) := e; rewrite !mxE => h.
have -> : (i == j) = (widen_ord le i == widen_ord le j) by [].
by rewrite -h; apply: eq_bigr => l _; rewrite !mxE.
Qed.

Definition qr_insert_ok : Prop := forall k (Q : 'M[F]_(n, k)) (R : 'M[F]_k) (u : 'cV[F]_n),
  Q^T *m Q = 1%:M -> u != Q *m (Q^T *m u) ->
  let: (Q', R') := qr_insert Q R u in
  [/\ Q'^T *m Q' = 1%:M, Q' *m R' = row_mx (Q *m R) u & lsubmx Q' = Q].
Hypothesis qrP : qr_insert_ok.

Definition fq s : nd F := s.1.1.

Lemma insert1_good k s ys u : size ys = k -> qr_good k s ys -> linv (k + 1) (rcons ys u) ->
  exists s', [/\ insert1 u s = Ok s', qr_good (k + 1) s' (rcons ys u) & to_mx n k (fq s') = to_mx n k (fq s)].
Proof.
case: s => -[q r] ri sz [[sq sr sc] QQ QR RiR] [L hL].
rewrite /ModelXtrace.insert1 sq sr sc.
set Q := to_mx n k q in QQ QR *; set R := to_mx k k r in QR RiR *; set Ri := to_mx k k ri in RiR *.
have eY : mat_of_cols (k + 1) (rcons ys u) = row_mx (Q *m R) u by rewrite QR -sz mat_of_cols_rcons.
rewrite eY in hL.
have uQ : u != Q *m (Q^T *m u).
  apply/eqP => e; pose x := Ri *m (Q^T *m u).
  have hx : row_mx (Q *m R) u *m col_mx x (- 1%:M) = 0.
    rewrite mul_row_col mulmxN mulmx1 /x -!mulmxA [R *m (Ri *m _)]mulmxA (mulmx1C RiR) mul1mx -e; exact: subrr.
  have : col_mx x (- 1%:M) = 0 by rewrite -[col_mx _ _]mul1mx -hL -mulmxA hx mulmx0.
  move/matrixP/(_ (rshift k 0) 0); rewrite col_mxEd !mxE eqxx => /eqP.
  by rewrite oppr_eq0 oner_eq0.
have := qrP R QQ uQ; case: (qr_insert _ _ _) => Q' R' [QQ' QR' lQ].
pose b := col (rshift k 0) R'; pose q' := rsubmx Q'.
have eQ : Q' = row_mx Q q' by rewrite /q' -{1}(hsubmxK Q') lQ.
have := QQ'; rewrite {1 2}eQ tr_row_mx mul_col_row [1%:M in RHS]scalar_mx_block => /eq_block_mx [_ Qq qQ qq].
have eR : R' = block_mx R (Q^T *m u) 0 (q'^T *m u).
  have -> : R' = Q'^T *m (Q' *m R') by rewrite mulmxA QQ' mul1mx.
  by rewrite QR' eQ tr_row_mx mul_col_row !mulmxA QQ mul1mx qQ mul0mx.
have eA : R' = append_col R b.
  rewrite {1}eR /append_col; congr (block_mx _ _ _ _).
    by apply/matrixP => i j; rewrite !mxE !ord1 eR block_mxEur mxE.
  by apply/matrixP => i j; rewrite !mxE !ord1 eR block_mxEdr mxE.
have b0 : b (rshift k 0) 0 != 0.
  apply: contra uQ => /eqP e; apply/eqP.
  have : Q' *m b = u.
    by rewrite /b -col_mul QR'; apply/colP => i; rewrite mxE row_mxEr.
  have -> : b = col_mx (Q^T *m u) 0.
    rewrite -(vsubmxK b); congr col_mx.
      by apply/matrixP => i j; rewrite !mxE !ord1 eR block_mxEur mxE.
    by apply/matrixP => i j; rewrite mxE !ord1 e mxE.
  by rewrite eQ mul_row_col mulmx0 addr0.
have [Ri' [-> h1 h2]] := C35_update_trinv_inverse RiR b0.
exists (of_mx Q', of_mx R', of_mx Ri'); split=> //.
  split; first by split.
  - by rewrite to_of_mx.
  - by rewrite !to_of_mx QR' eY.
  - by rewrite !to_of_mx eA.
rewrite /fq /= -/Q; apply/matrixP => i j.
rewrite (to_mx_le (leq_addr 1 k)) to_of_mx -lQ mxE; congr (Q' _ _); exact: val_inj.
Qed.

Lemma insert_cols_good k s ys us : size ys = k -> qr_good k s ys -> linv (k + size us) (ys ++ us) ->
  exists s', [/\ insert_cols us s = Ok s', qr_good (k + size us) s' (ys ++ us) & to_mx n k (fq s') = to_mx n k (fq s)].
Proof.
elim: us k s ys => [|u us IH] k s ys sz h hl /=; first by exists s; rewrite addn0 cats0.
have hl1 : linv (k + 1) (rcons ys u).
  have := linv_le (k' := k + 1) _ hl; rewrite leq_add2l /= => /(_ isT) [L e]; exists L; rewrite -[RHS]e.
  congr (_ *m _); apply: mat_of_cols_eq => j; rewrite -sz addn1 ltnS nth_rcons nth_cat => hj.
  by case: ltngtP hj => // ->; rewrite subnn.
have [s1 [-> h1 e1]] := insert1_good sz h hl1.
have sz1 : size (rcons ys u) = (k + 1)%N by rewrite size_rcons sz addn1.
have [|s2 [e2 h2 e3]] := IH _ s1 _ sz1 h1; first by rewrite cat_rcons -addnA add1n.
exists s2; split=> //; first by move: h2; rewrite cat_rcons -addnA add1n.
rewrite -e1; apply/matrixP => i j; by rewrite !(to_mx_le (leq_addr 1 k)) e3.
Qed.
End Insert.

Section Remaining.
Variables (n b : nat).
Hypothesis b0 : (0 < b)%N.
(* number of batches of size b still needed when k of n vectors are there *)
Definition remaining (k : nat) : nat := (((n - k) + b.-1) %/ b)%N.
Lemma remainingS k : (k < n)%N -> (remaining (k + minn (n - k) b)).+1 = remaining k.
Proof.
move=> kn; rewrite /remaining /minn; case: ltnP => h.
  rewrite subnKC ?(ltnW kn) // subnn add0n divn_small ?prednK //.
  have -> : (n - k + b.-1 = 1 * b + (n - k).-1)%N by lia.
  by rewrite divnMDl // divn_small //; lia.
rewrite subnDA.
have -> : (n - k + b.-1 = 1 * b + (n - k - b + b.-1))%N by lia.
by rewrite divnMDl.
Qed.

Lemma remaining_gt0 k : (remaining k == 0%N) = (n <= k)%N.
Proof.
case: leqP => h; last by rewrite -remainingS.
rewrite /remaining.
have -> : (n - k = 0)%N by lia.
by rewrite add0n divn_small ?prednK.
Qed.

End Remaining.

Section Loop.
Variable F : rcfType.
Variable G : Type.
Variables (tppf : F -> nat -> F) (zq : F -> F).
Variable n : nat.
Variable qr_insert : forall k, 'M[F]_(n, k) -> 'M[F]_k -> 'cV[F]_n -> 'M[F]_(n, k + 1) * 'M[F]_(k + 1).
Variables (A : 'M[F]_n) (b : nat) (sample : sampler F G n) (r nt : bool) (g0 : G).
Hypothesis ok : sample_ok sample.
Hypothesis b0 : (0 < b)%N.
Local Notation xstate := (xstate F G n).
Local Notation remaining := (remaining n b).
Local Notation body := (xtrace_body qr_insert A b%:Z sample r nt).

(* asking for a + b columns is asking for a and then for b *)
Definition split_ok : Prop := forall i j g,
  sample (i + j)%N g = ((sample i g).1 ++ (sample j (sample i g).2).1, (sample j (sample i g).2).2).

Definition silent : eresult F (mest F) := EResult None (PFloat (Fin 0)) 0.
Definition xk (st : xstate) : nat := size (xs_probes st).

(* the values computed from a state *)
Definition xvals (st : xstate) : seq F :=
  let k := xk st in
  let: (q, rr, ri) := xs_fac st in
  let t := xtrace_helper (to_mx n k (xs_W st)) (to_mx n k (xs_Z st)) (to_mx n k q) (to_mx k k rr) (to_mx k k ri) VFun in
  [seq t i 0 | i <- enum 'I_k].

Record xinv (st : xstate) : Prop := XInv {
  xi_le : (xk st <= n)%N;
  xi_Wc : nd_c (xs_W st) = xk st;
  xi_W : to_mx n (xk st) (xs_W st) = mat_of_cols (xk st) (xs_probes st);
  xi_Zc : nd_c (xs_Z st) = xk st;
  xi_shape : shaped (xk st) (xs_fac st);
  xi_n : ms_n (xs_est st) = xk st;
  xi_est : exists dl, xs_est st = mest_of 1 false r [seq [:: x] | x <- xvals st] dl;
  xi_good : qr_insert_ok qr_insert -> linv (xk st) [seq A *m v | v <- xs_probes st] ->
            qr_good (xk st) (xs_fac st) [seq A *m v | v <- xs_probes st] /\
            to_mx n (xk st) (xs_Z st) = A *m to_mx n (xk st) (fq (xs_fac st));
  xi_seen : xs_seen st = if nt then nseq (remaining 0%N - remaining (xk st)) silent else [::];
  xi_gen : split_ok -> sample 0%N g0 = ([::], g0) -> sample (xk st) g0 = (xs_probes st, xs_gen st)
}.

Lemma xinv0 : xinv (xtrace_init F n r g0).
Proof.
split=> //=.
- by apply/matrixP => i [].
- by exists (nseq 1 PInf); rewrite mest_init_of /xvals /= enum_ord0.
- move=> _ _; split; last by apply/matrixP => i [].
  by split=> //; apply/matrixP; case=> // i h; case.
- by rewrite subnn; case: nt.
Qed.

Lemma cols_of_mul k (vs : seq 'cV[F]_n) : size vs = k ->
  [seq col j (A *m mat_of_cols k vs) | j <- enum 'I_k] = [seq A *m v | v <- vs].
Proof.
move=> sz; have -> : [seq col j (A *m mat_of_cols k vs) | j <- enum 'I_k] = [seq A *m nth 0 vs j | j : 'I_k <- enum 'I_k].
  by apply: eq_map => j; rewrite col_mul col_mat_of_cols.
rewrite (map_comp (fun i => A *m nth 0 vs i) (@nat_of_ord k)) val_enum_ord -sz.
by rewrite (map_comp (mulmx A) (nth 0 vs)) -/(mkseq (nth 0 vs) (size vs)) mkseq_nth.
Qed.

Lemma hstack_W k ns (W : nd F) (ps vs : seq 'cV[F]_n) : nd_c W = k -> size ps = k -> size vs = ns ->
  to_mx n k W = mat_of_cols k ps ->
  to_mx n (k + ns) (hstack W (of_mx (mat_of_cols ns vs))) = mat_of_cols (k + ns) (ps ++ vs).
Proof.
move=> eW sp sv e; apply/matrixP => i j; rewrite !mxE /= nth_cat eW sp; case: ltnP => h.
  by have /matrixP/(_ i (Ordinal h)) := e; rewrite !mxE.
have hj : (j - k < ns)%N by rewrite ltn_subLR.
by rewrite valK (insubT (fun x => x < ns)%N hj) mxE.
Qed.

Lemma hstack_Z k ns (Z q : nd F) : nd_c Z = k -> nd_c q = (k + ns)%N -> (0 < ns)%N ->
  to_mx n k Z = A *m to_mx n k q ->
  let Ql := last_cols ns q in
  to_mx n (k + ns) (hstack Z (of_mx (A *m to_mx n (nd_c Ql) Ql))) = A *m to_mx n (k + ns) q.
Proof.
move=> eZ eq ns0 e /=; rewrite eq [ns == 0%N]eqn0Ngt ns0 /=.
have -> : (k + ns - ns = k)%N by rewrite addnK.
rewrite addKn; apply/matrixP => i j; rewrite !mxE /= eZ; case: ltnP => h.
  by have /matrixP/(_ i (Ordinal h)) := e; rewrite !mxE /= => ->; apply: eq_bigr => l _; rewrite !mxE.
have hj : (j - k < ns)%N by rewrite ltn_subLR.
rewrite valK (insubT (fun x => x < ns)%N hj) mxE; apply: eq_bigr => l _; rewrite !mxE /=.
by rewrite eq [ns == 0%N]eqn0Ngt ns0 addnK subnKC.
Qed.

Lemma xstep st : xinv st -> (xk st < n)%N ->
  exists st', [/\ body st = Ok st', xinv st' & xk st' = (xk st + minn (n - xk st) b)%N].
Proof.
case=> le Wc W Zc sh nn est good seen gen kn; rewrite /xtrace_body Wc.
set k := xk st in le Wc W Zc sh nn good seen gen kn *.
set ns := minn _ `|b%:Z|; have ens : ns = minn (n - k) b by [].
have ns0 : (0 < ns)%N by rewrite ens leq_min subn_gt0 kn.
have kns : (k + ns <= n)%N by rewrite -[X in (_ <= X)%N](subnKC le) leq_add2l ens geq_minl.
have kE : k = size (xs_probes st) by [].
case es: (sample ns (xs_gen st)) => [vs g'].
have sv : size vs = ns by rewrite -(ok ns (xs_gen st)) es.
rewrite cols_of_mul //.
have [fac [ef shf]] := insert_cols_shape qr_insert [seq A *m v | v <- vs] sh.
rewrite size_map sv in shf.
rewrite ef /=; case: fac ef shf => -[q rr] ri ef shf.
have [sq sr sc] := shf.
have mE : nd_c (hstack (xs_W st) (of_mx (mat_of_cols ns vs))) = (k + ns)%N by rewrite /= Wc.
rewrite Wc.
set t := xtrace_helper _ _ _ _ _ _.
have gb : good_batch 1 (Arr1 [seq t i 0 | i <- enum 'I_(k + ns)]).
  by rewrite /good_batch /cols_of /rows_of /= !size_map -enumT size_enum_ord addn_gt0 ns0 orbT.
rewrite mest_init_of mest_update_good //=.
eexists; split; [reflexivity| |by rewrite /xk /= size_cat sv -kE].
have xkE : size (xs_probes st ++ vs) = (k + ns)%N by rewrite size_cat sv.
split; rewrite /xk /= ?xkE //.
- exact: hstack_W.
- by rewrite Zc sq [ns == 0%N]eqn0Ngt ns0 addnK addKn.
- by rewrite /rows_of /= !size_map -enumT size_enum_ord.
- by eexists; rewrite /xvals /xk /= xkE; reflexivity.
- move=> qrP; rewrite map_cat => hl.
  have hl0 : linv k [seq A *m v | v <- xs_probes st].
    have [L eL] := linv_le (leq_addr ns k) hl; exists L; rewrite -eL; congr (_ *m _).
    by apply: mat_of_cols_eq => j hj; rewrite nth_cat size_map -kE hj.
  have [gd gZ] := good qrP hl0.
  have szp : size [seq A *m v | v <- xs_probes st] = k by rewrite size_map.
  have hl1 : linv (k + size [seq A *m v | v <- vs]) ([seq A *m v | v <- xs_probes st] ++ [seq A *m v | v <- vs]).
    by rewrite size_map sv.
  have [s' [es' gd' eq']] := insert_cols_good qrP szp gd hl1.
  move: es'; rewrite ef => -[e']; rewrite -e' in gd' eq'; rewrite size_map sv in gd'; split=> //.
  by apply: hstack_Z => //; rewrite gZ -eq'.
- rewrite seen; case: (nt) => //; rewrite -cats1 -[[:: _]]/(nseq 1 silent) -nseqD; congr nseq.
  have := remainingS b0 kn; rewrite -ens => e.
  have : (remaining k <= remaining 0)%N by rewrite /remaining leq_div2r // leq_add2r leq_sub2l.
  by rewrite -e; lia.
- move=> sok s0; rewrite sok (gen sok s0) /= es; by [].
Qed.

Lemma xtest c st : xinv st -> (c = CCount F n%:Z \/ c = COr (CCount F n%:Z) (CCount F n%:Z)) ->
  xtrace_test tppf zq c st = Ok (remaining (xk st) == 0%N).
Proof.
move=> h hc; rewrite remaining_gt0 // /xtrace_test.
by case: hc => -> /=; rewrite /count_call /= (xi_n h) ?orbb lez_nat.
Qed.

Lemma xloop_some c fuel out : (c = CCount F n%:Z \/ c = COr (CCount F n%:Z) (CCount F n%:Z)) ->
  while_not fuel (xtrace_test tppf zq c) body (xtrace_init F n r g0) = Some out ->
  exists st, [/\ out = Ok st, xinv st, xk st = n & (remaining 0 < fuel)%N].
Proof.
move=> hc hf.
have [|st hi h0|st [e hi h0 h1]] := @while_measure_some _ (xtrace_test tppf zq c) body xinv (fun st => remaining (xk st)) _ _ fuel (xtrace_init F n r g0) _ xinv0 hf.
- by move=> st h; apply: xtest.
- have kn : (xk st < n)%N by rewrite ltnNge -(remaining_gt0 n b0) -lt0n.
  have [st' [e' i' k']] := xstep hi kn; exists st'; split=> //; by rewrite k' remainingS.
- exists st; split=> //; apply/eqP; rewrite eqn_leq (xi_le hi) /= -(remaining_gt0 n b0); exact/eqP.
Qed.

Lemma xloop c fuel : (c = CCount F n%:Z \/ c = COr (CCount F n%:Z) (CCount F n%:Z)) -> (remaining 0 < fuel)%N ->
  exists st, [/\ while_not fuel (xtrace_test tppf zq c) body (xtrace_init F n r g0) = Some (Ok st), xinv st & xk st = n].
Proof.
move=> hc hf.
have [|st hi h0|//|st [e hi h0]] := @while_measure _ (xtrace_test tppf zq c) body xinv (fun st => remaining (xk st)) _ _ fuel (xtrace_init F n r g0) xinv0.
- by move=> st h; apply: xtest.
- have kn : (xk st < n)%N by rewrite ltnNge -(remaining_gt0 n b0) -lt0n.
  have [st' [e' i' k']] := xstep hi kn; exists st'; split=> //; by rewrite k' remainingS.
- exists st; split=> //; apply/eqP; rewrite eqn_leq (xi_le hi) /= -(remaining_gt0 n b0); exact/eqP.
Qed.
End Loop.
