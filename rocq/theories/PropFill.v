(* C71: the multithreaded class Isotropic. *)
From Coq Require Import String.
From mathcomp Require Import all_ssreflect all_algebra zify.
From Verif Require Import Base ModelTyping ModelRandom ModelRandom2 LemFill.
Set Implicit Arguments.
Unset Strict Implicit.
Unset Printing Implicit Defensive.
Import Order.TTheory GRing.Theory Num.Theory.
Local Open Scope ring_scope.

Section P.
Variable F : rcfType.
Variable G : Type.
Variable unif : G -> rat * G.
Variable gauss : G -> F * G.
Variable spawn : G -> nat -> nat -> G.
Variable cpu_count : nat.
Local Notation iso_obj := (iso_obj F G).
Local Notation fill := (@fill F G unif gauss).
Local Notation iso_fill := (@iso_fill F G unif gauss).
Local Notation iso_init := (@iso_init F G spawn cpu_count).
Implicit Types o : iso_obj.

(* an object returned by the constructor *)
Definition ctor o : Prop := exists size name threads g, iso_init size name threads g = Ok o.

(* a history of completed calls of fill, each under its own interleaving *)
Fixpoint fills o (h : seq ((nat -> nat -> F) * seq nat)) : option iso_obj :=
  match h with
  | [::] => Some o
  | (tmp, sched) :: h' => if fill o tmp sched is Some o1 then fills o1 h' else None
  end.

(* spec: the columns handed to worker i when k columns are dealt to t workers in
   consecutive blocks of ceil(k/t) *)
Definition share (k t i : nat) : nat :=
  let s := ((k + t).-1 %/ t)%N in (minn (i.+1 * s) k - minn (i * s) k)%N.

Definition iso_wf o : Prop := (0 < i_threads o)%N /\ i_step o = ((i_cols o + i_threads o).-1 %/ i_threads o)%N.

Lemma ctor_wf o : ctor o -> iso_wf o.
Proof.
case=> [size [name [threads [g]]]]; rewrite /iso_init; case: (lookup _ _) => // p.
move: (if threads is Some t then t else cpu_count%:Z) => t; case: ifP => //; case: (leP t 0) => // t0 _.
by case: size => [|n [|k [|]]] // [<-]; split=> //=; lia.
Qed.

Lemma fill_keeps o tmp sched o' : fill o tmp sched = Some o' ->
  [/\ i_pdf o' = i_pdf o, i_threads o' = i_threads o, i_rows o' = i_rows o, i_cols o' = i_cols o & i_step o' = i_step o].
Proof. by rewrite /fill; case: foldl => s ps; case: ifP => // _ [<-]. Qed.

Lemma fills_wf o h o' : iso_wf o -> fills o h = Some o' -> iso_wf o'.
Proof.
elim: h o => [|[tmp sched] h IH] o; first by move=> W [<-].
move=> W /=; case E: (fill _ _ _) => [o1|] //; apply: IH.
by case: (fill_keeps E) => e1 e2 e3 e4 e5; rewrite /iso_wf e2 e4 e5.
Qed.

Lemma blo_bhi o i : (blo o i <= bhi o i)%N /\ blo o i.+1 = bhi o i.
Proof. by split=> //; rewrite /blo /bhi mulSn; set a := (i * _)%N; lia. Qed.

Lemma block_disj o i j p : i != j -> incols (blo o i) (bhi o i) p -> ~~ incols (blo o j) (bhi o j) p.
Proof.
rewrite /incols /blo /bhi; set c := p.2; set s := i_step o; set k := i_cols o => ij.
case: (ltngtP i j) ij => // h _.
  have H : (i.+1 * s <= j * s)%N by rewrite leq_mul2r h orbT.
  move: (i.+1 * s)%N (j * s)%N (i * s)%N (j.+1 * s)%N H; clearbody c k; clear; lia.
have H : (j.+1 * s <= i * s)%N by rewrite leq_mul2r h orbT.
move: (j.+1 * s)%N (i * s)%N (j * s)%N (i.+1 * s)%N H; clearbody c k; clear; lia.
Qed.

Lemma blo_last o : iso_wf o -> blo o (i_threads o) = i_cols o.
Proof.
case=> t0 e; rewrite /blo e; apply/minn_idPr; set k := i_cols o; set t := i_threads o in t0 *.
have := divn_eq (k + t).-1 t; have := ltn_pmod (k + t).-1 t0; set q := (_ %/ _)%N; set r := (_ %% _)%N.
by rewrite mulnC; set u := (q * t)%N; lia.
Qed.

Lemma flatten_blocks (T : Type) (f : nat -> T) (lo : nat -> nat) t : (forall i, (lo i <= lo i.+1)%N) ->
  flatten [seq [seq f c | c <- iota (lo i) (lo i.+1 - lo i)] | i <- iota 0 t] = [seq f c | c <- iota (lo 0%N) (lo t - lo 0%N)].
Proof.
move=> mono; elim: t => [|t IH]; first by rewrite subnn.
rewrite -addn1 iotaD map_cat flatten_cat IH /= cats0 add0n -map_cat.
have h : (lo 0%N <= lo t)%N by elim: t {IH} => // t IH; exact: leq_trans IH (mono t).
congr (map _ _); have -> : (lo (t + 1) - lo 0%N)%N = ((lo t - lo 0%N) + (lo t.+1 - lo t))%N.
  by rewrite addn1; move: (mono t) h; lia.
by rewrite iotaD subnKC.
Qed.

Lemma fill_spec o tmp sched o' : iso_wf o -> fill o tmp sched = Some o' ->
  columns o' = flatten [seq (iso_fill (i_pdf o) (i_rows o) (share (i_cols o) (i_threads o) i) (i_gens o i)).1
                       | i <- iota 0 (i_threads o)] /\
  (forall i, (i < i_threads o)%N ->
     i_gens o' i = (iso_fill (i_pdf o) (i_rows o) (share (i_cols o) (i_threads o) i) (i_gens o i)).2) /\
  (forall r c, (i_cols o <= c)%N -> i_values o' (r, c) = i_values o (r, c)).
Proof.
move=> W; rewrite /fill; set s0 := Shared _ _ _.
case E: (foldl _ _ _) => [s ps]; case: ifP => // /(all_nthP [::]) dn [<-] /=.
have gd : good (blo o) (bhi o) (tasks unif gauss o).
  move=> i; case: (ltnP i (i_threads o)) => h; last by rewrite nth_default // size_map size_iota.
  by rewrite (nth_map 0%N) ?size_iota // nth_iota // add0n task_owned.
have sz : size (tasks unif gauss o) = i_threads o by rewrite size_map size_iota.
have [_ [sp [ag ot]]] := sched_inv (@block_disj o) gd E.
have nl i : (i < i_threads o)%N -> nth [::] ps i = [::].
  by move=> h; apply/nilP/dn; rewrite sp sz.
have ag' i : (i < i_threads o)%N -> agree i (blo o i) (bhi o i) s (exec_all (task unif gauss (i_pdf o) (i_rows o) i (blo o i) (bhi o i)) s0).
  move=> h; have := ag i; rewrite sz nl // (nth_map 0%N) ?size_iota // nth_iota // add0n; exact.
have shE i : share (i_cols o) (i_threads o) i = (bhi o i - blo o i)%N by case: W => _ e; rewrite /share -e.
split; last split.
- rewrite /columns /=; have lo0 : blo o 0 = 0%N by rewrite /blo mul0n min0n.
  have := @flatten_blocks _ (fun c => [seq fval (cells s (r, c)) | r <- iota 0 (i_rows o)]) (blo o) (i_threads o) (fun i => (blo_bhi o i).1).
  rewrite lo0 subn0 blo_last // => <-; congr flatten; apply/eq_in_map => i; rewrite mem_iota add0n /= => hi.
  rewrite shE; have [h1 _] := task_solo unif gauss (i_pdf o) (i_rows o) i s0 (blo_bhi o i).1.
  have [a1 _ _] := ag' i hi.
  have [z1 z2] := iso_fill_sizes unif gauss (i_pdf o) (i_rows o) (bhi o i - blo o i) (i_gens o i).
  apply: (@eq_from_nth _ [::]); first by rewrite size_map size_iota z1 (blo_bhi o i).2.
  move=> j; rewrite size_map size_iota (blo_bhi o i).2 => jl.
  rewrite (nth_map 0%N) ?size_iota // nth_iota //.
  apply: (@eq_from_nth _ 0); first by rewrite size_map size_iota z2.
  move=> r; rewrite size_map size_iota => rl; rewrite (nth_map 0%N) ?size_iota // nth_iota // add0n.
  have hb : (blo o i <= blo o i + j < bhi o i)%N by rewrite leq_addr /= -ltn_subRL.
  by rewrite a1 // h1 // addKn.
- move=> i hi; rewrite shE; have [_ a2 _] := ag' i hi; rewrite a2.
  by have [_ ->] := task_solo unif gauss (i_pdf o) (i_rows o) i s0 (blo_bhi o i).1.
- move=> r c hc; rewrite ot // => i; rewrite /incols /= /bhi; move: hc; set a := (_ * _)%N; lia.
Qed.

(* Whatever the earlier calls and whatever the interleaving of the workers, fill
   leaves in the array, block after block, what the sequential sampler produces
   with generator i; every column is written, each generator advances by its
   block only, and shape and distribution stay. *)
Theorem C71_schedule o0 h o tmp sched o' : ctor o0 -> fills o0 h = Some o -> fill o tmp sched = Some o' ->
  [/\ columns o' = flatten [seq (iso_fill (i_pdf o0) (i_rows o0) (share (i_cols o0) (i_threads o0) i) (i_gens o i)).1
                           | i <- iota 0 (i_threads o0)],
      forall i, (i < i_threads o0)%N ->
        i_gens o' i = (iso_fill (i_pdf o0) (i_rows o0) (share (i_cols o0) (i_threads o0) i) (i_gens o i)).2,
      size (columns o') = i_cols o0 &
      [/\ i_pdf o' = i_pdf o0, i_threads o' = i_threads o0, i_rows o' = i_rows o0 & i_cols o' = i_cols o0]].
Proof.
move=> /ctor_wf W H E; have K : [/\ i_pdf o = i_pdf o0, i_threads o = i_threads o0, i_rows o = i_rows o0 & i_cols o = i_cols o0].
  elim: h o0 H {W} => [|[t sc] h IH] o0; first by case=> ->.
  move=> /=; case E1: (fill _ _ _) => [o1|] // /IH[-> -> -> ->].
  by case: (fill_keeps E1) => -> -> -> ->.
have [h1 [h2 _]] := fill_spec (fills_wf W H) E; case: (fill_keeps E) => k1 k2 k3 k4 _.
case: K => e1 e2 e3 e4; rewrite -e1 -e2 -e3 -e4; split=> //.
by rewrite /columns size_map size_iota k4.
Qed.

(* two runs from the same object under different interleavings agree *)
Theorem C71_deterministic o0 h o tmp1 sched1 o1 tmp2 sched2 o2 : ctor o0 -> fills o0 h = Some o ->
  fill o tmp1 sched1 = Some o1 -> fill o tmp2 sched2 = Some o2 ->
  columns o1 = columns o2 /\ (forall i, (i < i_threads o0)%N -> i_gens o1 i = i_gens o2 i).
Proof.
move=> C H E1 E2; have [a1 b1 _ _] := C71_schedule C H E1; have [a2 b2 _ _] := C71_schedule C H E2.
by split=> [|i hi]; [rewrite a1 a2|rewrite b1 // b2].
Qed.

(* one thread: the array isotropic(size, pdf, seed) returns, and the generator it leaves *)
Theorem C71_single n k name g o tmp sched o' :
  iso_init [:: n; k] name (Some 1) g = Ok o -> fill o tmp sched = Some o' ->
  isotropic_call unif gauss (SizePair n k) (PName F G name) OutNone g = Ok (RArray G (columns o'), i_gens o' 0).
Proof.
move=> I E; have C : ctor o by exists [:: n; k], name, (Some 1), g.
have [h1 h2 _ _] := C71_schedule C (erefl : fills o [::] = Some o) E.
move: I; rewrite /isotropic_call /iso_init; case: (lookup _ _) => //= p [I].
rewrite h1 h2 -I //= /share addn1 /= divn1 mul0n mul1n minnn min0n subn0 cats0.
by case: (iso_fill p n k g).
Qed.

(* wait() returns: giving every worker enough turns finishes, in any order *)
Theorem C71_complete o0 h o tmp sched : ctor o0 -> fills o0 h = Some o ->
  (forall i, (i < i_threads o0)%N -> (6 * (i_rows o0).+1 * share (i_cols o0) (i_threads o0) i <= count_mem i sched)%N) ->
  exists o', fill o tmp sched = Some o'.
Proof.
move=> /ctor_wf W H hs; have W' := fills_wf W H.
have K : [/\ i_pdf o = i_pdf o0, i_threads o = i_threads o0, i_rows o = i_rows o0 & i_cols o = i_cols o0].
  elim: h o0 H {W hs} => [|[t sc] h IH] o0; first by case=> ->.
  move=> /=; case E1: (fill _ _ _) => [o1|] // /IH[-> -> -> ->].
  by case: (fill_keeps E1) => -> -> -> ->.
case: K => e1 e2 e3 e4; rewrite -e2 -e3 -e4 in hs.
rewrite /fill; case E: (foldl _ _ _) => [s ps]; have dn := sched_done E.
suff -> : all (fun q => nilp q) ps by eexists.
apply/(all_nthP [::]) => i _; rewrite /nilp dn subn_eq0.
case: (ltnP i (i_threads o)) => hi; last by rewrite nth_default // size_map size_iota.
apply: leq_trans (hs i hi); rewrite (nth_map 0%N) ?size_iota // nth_iota // add0n.
have -> : share (i_cols o) (i_threads o) i = (bhi o i - blo o i)%N by case: W' => _ e; rewrite /share -e.
set w := (bhi o i - blo o i)%N; have sb : size (block (i_rows o) (blo o i) (bhi o i)) = (w * i_rows o)%N.
  by rewrite size_allpairs !size_iota.
rewrite /task; case: (i_pdf o); rewrite ?size_cat ?size_map ?sb ?size_iota -/w.
all: rewrite -mulnA [((i_rows o).+1 * w)%N]mulnC mulnS; move: (w * i_rows o)%N => x; clearbody w; clear; lia.
Qed.

(* what the constructor accepts: a known name, a positive number of threads, two dimensions *)
Theorem C71_init size name threads g :
  let t := if threads is Some t then t else cpu_count%:Z in
  match iso_init size name threads g with
  | Ok o => [/\ lookup name ISO_DISTRIBUTIONS = Some (i_pdf o), (i_threads o)%:Z = t, 0 < t,
                size = [:: i_rows o; i_cols o] &
                columns o = nseq (i_cols o) (nseq (i_rows o) 0) /\ (t = 1 -> i_gens o 0 = g)]
  | Err KeyError => lookup name ISO_DISTRIBUTIONS = None
  | Err ValueError => lookup name ISO_DISTRIBUTIONS <> None /\ t <= 0
  | Err IndexError => [/\ lookup name ISO_DISTRIBUTIONS <> None, 0 < t & forall n k, size <> [:: n; k]]
  | Err _ => False
  end.
Proof.
rewrite /iso_init; case E: (lookup _ _) => [p|] //=.
move: (if threads is Some t then t else cpu_count%:Z) => t; case: (leP t 0) => t0 //.
case: size => [|n [|k [|k' l]]] //=; split=> //; first by rewrite gez0_abs // ltW.
split; last by move=> ->.
rewrite /columns /=; have N (T : Type) (x : T) m a : [seq x | _ <- iota a m] = nseq m x by elim: m a => //= m IH a; rewrite IH.
by rewrite !N.
Qed.
End P.

(* ---- a concrete case: 2 rows, 3 columns, 2 workers, two different interleavings ---------- *)
Section E.
Variable F : rcfType.
Definition e_unif (g : nat) : rat * nat := (if odd g then 3%:Q / 4%:Q else 1 / 4%:Q, g.+1).
Definition e_gauss (g : nat) : F * nat := (g%:R + 1, g.+1).
Definition e_spawn (g t i : nat) : nat := (10 * g + i)%N.
Local Notation einit := (@iso_init F nat e_spawn 4).
Local Notation efill := (@fill F nat e_unif e_gauss).

Example C71_ex : exists o o1 o2,
  [/\ einit [:: 2; 3]%N "sphere"%string (Some 2) 7%N = Ok o,
      efill o (fun _ _ => 5%:R) (flatten (nseq 50 [:: 0; 1]%N)) = Some o1,
      efill o (fun _ _ => 0) (cat (nseq 40 1%N) (nseq 40 0%N)) = Some o2 &
      columns o1 = columns o2].
Proof.
have [o Eo] : exists o, einit [:: 2; 3]%N "sphere"%string (Some 2) 7%N = Ok o by eexists.
have C : ctor e_spawn 4 o by exists [:: 2; 3]%N, "sphere"%string, (Some 2), 7%N.
have H : fills e_unif e_gauss o [::] = Some o by [].
have [o1 E1] : exists o', efill o (fun _ _ => 5%:R) (flatten (nseq 50 [:: 0; 1]%N)) = Some o'.
  by apply: (C71_complete _ C H); case: Eo => <- /= [|[|]].
have [o2 E2] : exists o', efill o (fun _ _ => 0) (cat (nseq 40 1%N) (nseq 40 0%N)) = Some o'.
  by apply: (C71_complete _ C H); case: Eo => <- /= [|[|]].
exists o, o1, o2; split=> //; exact: (C71_deterministic C H E1 E2).1.
Qed.

(* the signs written by two workers with their own generators *)
Example C71_value_ex : exists o o1,
  [/\ einit [:: 2; 3]%N "signs"%string (Some 2) 7%N = Ok o,
      efill o (fun _ _ => 0) (flatten (nseq 50 [:: 0; 1]%N)) = Some o1 &
      columns o1 = [:: [:: -1; 1]; [:: -1; 1]; [:: 1; -1]]].
Proof.
have [o Eo] : exists o, einit [:: 2; 3]%N "signs"%string (Some 2) 7%N = Ok o by eexists.
have C : ctor e_spawn 4 o by exists [:: 2; 3]%N, "signs"%string, (Some 2), 7%N.
have H : fills e_unif e_gauss o [::] = Some o by [].
have [o1 E1] : exists o', efill o (fun _ _ => 0) (flatten (nseq 50 [:: 0; 1]%N)) = Some o'.
  by apply: (C71_complete _ C H); case: Eo => <- /= [|[|]].
exists o, o1; split=> //; have [-> _ _ _] := C71_schedule C H E1; case: Eo => <- /=.
have -> : rademacher_entry (3%:Q / 4%:Q) = 1 by apply/eqP; vm_compute.
have -> : rademacher_entry (1 / 4%:Q) = -1 by apply/eqP; vm_compute.
by rewrite !raddfN /= !rmorph1.
Qed.
End E.

Print Assumptions C71_schedule.
Print Assumptions C71_deterministic.
Print Assumptions C71_single.
Print Assumptions C71_complete.
Print Assumptions C71_init.
