(* Properties C18, C19, C20 *)
From Coq Require Import String Ascii Permutation.
From mathcomp Require Import all_ssreflect all_algebra zify.
From Verif Require Import Base ModelStats ModelEstimators ModelTyping.
Set Implicit Arguments.
Unset Strict Implicit.
Unset Printing Implicit Defensive.
Import Order.TTheory GRing.Theory Num.Theory.
Local Open Scope ring_scope.

(* ---- C19 ------------------------------------------------------------------ *)
Section Dict.
Variable V : Type.
Implicit Type kw : kwargs V.

Lemma lookup_filter (P : string -> bool) k kw :
  lookup k [seq p <- kw | P p.1] = if P k then lookup k kw else None.
Proof.
elim: kw => [|[k' v] kw IH] /=; first by case: ifP.
case Pk': (P k') => /=; rewrite IH.
  by case: (String.eqb_spec k k') => // ->; rewrite Pk'.
by case: (String.eqb_spec k k') => // ->; rewrite Pk'.
Qed.

Lemma mem_strP k s : reflect (List.In k s) (mem_str k s).
Proof.
apply: (iffP idP); elim: s => [//|x s IH] /=.
  by case/orP=> [/String.eqb_eq ->|/IH]; [left|right].
by case=> [->|/IH h]; rewrite ?String.eqb_refl // h orbT.
Qed.

(* the two halves are complementary: each entry lands, with its value, in
   exactly one of them *)
Theorem C19_kwargs_partition (params : seq string) kw :
  (forall k v, List.In (k, v) (restrict_kwargs params kw) <-> List.In (k, v) kw /\ List.In k params) /\
  (forall k v, List.In (k, v) (setdiff_kwargs params kw) <-> List.In (k, v) kw /\ ~ List.In k params) /\
  Permutation (restrict_kwargs params kw ++ setdiff_kwargs params kw) kw.
Proof.
have filt (P : pred (string * V)) p kw' : List.In p [seq q <- kw' | P q] <-> List.In p kw' /\ P p.
  elim: kw' => [|q kw' IH] /=; first by split=> [|[]].
  case Pq: (P q) => /=; rewrite IH; split.
  - by case=> [<-|[]]; [split; [left|]|split; [right|]].
  - by case=> -[<-|]; [left|right].
  - by case; split; [right|].
  - by case=> -[<-|//]; rewrite Pq.
split; first by move=> k v; rewrite filt; split=> -[h /mem_strP h2]; split=> //; apply/mem_strP.
split.
  move=> k v; rewrite filt; split=> -[h h2]; split=> //; first by move/mem_strP; exact/negP.
  by apply/negP => /mem_strP.
elim: kw => [|q kw IH] /=; first by constructor.
rewrite /restrict_kwargs /setdiff_kwargs /=; case: (mem_str _ _) => /=; first by constructor.
rewrite -cat1s; apply: Permutation_trans (Permutation_app_comm _ _) _ => /=.
by constructor; apply: Permutation_trans (Permutation_app_comm _ _) _.
Qed.

(* in terms of dictionary access *)
Theorem C19_kwargs_lookup (params : seq string) kw k :
  (List.In k params -> lookup k (restrict_kwargs params kw) = lookup k kw /\ lookup k (setdiff_kwargs params kw) = None) /\
  (~ List.In k params -> lookup k (restrict_kwargs params kw) = None /\ lookup k (setdiff_kwargs params kw) = lookup k kw).
Proof.
rewrite (lookup_filter (fun k => mem_str k params)) (lookup_filter (fun k => ~~ mem_str k params)).
by split=> h; [have -> : mem_str k params by apply/mem_strP|
  have /negPf -> : ~~ mem_str k params by apply/negP => /mem_strP].
Qed.
End Dict.

Example ex_C19 : restrict_kwargs [:: "count"; "x"]%string [:: ("atol", 1); ("count", 2)]%N%string = [:: ("count", 2)]%N%string
  /\ setdiff_kwargs [:: "count"; "x"]%string [:: ("atol", 1); ("count", 2)]%N%string = [:: ("atol", 1)]%N%string.
Proof. by []. Qed.

(* ---- C18 ------------------------------------------------------------------ *)
Section Crit.
Variable F : rcfType.
Implicit Type kw : kwargs (pyarg F).

(* two letters differing at most in ASCII case *)
Definition same_letter (a b : ascii) : Prop :=
  let m := nat_of_ascii a in let n := nat_of_ascii b in
  a = b \/ ((65 <= m <= 90)%N /\ n = (m + 32)%N) \/ ((65 <= n <= 90)%N /\ m = (n + 32)%N).
Fixpoint same_word (s t : string) : Prop :=
  match s, t with
  | EmptyString, EmptyString => True
  | String a s', String b t' => same_letter a b /\ same_word s' t'
  | _, _ => False
  end.

Lemma ascii_nat_inj a b : nat_of_ascii a = nat_of_ascii b -> a = b.
Proof. by move=> e; rewrite -(ascii_nat_embedding a) e ascii_nat_embedding. Qed.

Lemma lower_shift a b : (65 <= nat_of_ascii a <= 90)%N -> nat_of_ascii b = (nat_of_ascii a + 32)%N ->
  lower_ascii a = b /\ lower_ascii b = b.
Proof.
rewrite /lower_ascii => /andP[h1 h2] e; rewrite h1 h2 e /= -e ascii_nat_embedding; split=> //.
case: ifP => // /andP[_ h3]; move: h3; rewrite e => h3.
by have := leq_trans (leq_add h1 (leqnn 32)) h3.
Qed.

Lemma same_letter_lower a b : same_letter a b -> lower_ascii a = lower_ascii b.
Proof.
case=> [-> //|[[h e]|[h e]]]; have [e1 e2] := lower_shift h e; first by rewrite e1 e2.
by rewrite e1 e2.
Qed.

Lemma same_word_lower s t : same_word s t -> lower s = lower t.
Proof.
elim: s t => [|a s IH] [|b t] //= [/same_letter_lower -> /IH ->] //.
Qed.

Theorem C18_object_unchanged (c : crit F) kw : convergence_criterion (CGiven c) kw = Ok (RGiven c).
Proof. by []. Qed.

Theorem C18_case_insensitive s t kw : same_word s t ->
  convergence_criterion (CName s) kw = convergence_criterion (CName t) kw.
Proof. by move=> /same_word_lower e; rewrite /convergence_criterion e. Qed.

Lemma same_letter_sym a b : same_letter a b -> same_letter b a.
Proof. by case=> [->|[|]]; [left|right; right|right; left]. Qed.

(* the word in lower case is the same word *)
Lemma lower_same s : same_word s (lower s).
Proof.
elim: s => [//|a s IH] /=; split=> //; rewrite /same_letter /lower_ascii.
case: ifP => [/andP[h1 h2]|_]; last by left.
right; left; split=> //.
by rewrite nat_ascii_embedding //; apply/ssrnat.ltP; rewrite (leq_ltn_trans (leq_add h2 (leqnn 32))).
Qed.

(* names that are not one of the four, up to case, are rejected; so is any
   other kind of object *)
Theorem C18_unknown_rejected s kw :
  (forall w, List.In w [:: "count"; "tolerance"; "confidence"; "knee"]%string -> ~ same_word s w) ->
  convergence_criterion (CName s) kw = Err AssertionError /\
  convergence_criterion COther kw = Err AssertionError.
Proof.
move=> h; split=> //; rewrite /convergence_criterion.
case E: (lookup _ _) => [k|//]; exfalso.
have {E k} : List.In (lower s) [:: "count"; "tolerance"; "confidence"; "knee"]%string.
  move: E; rewrite /=.
  do 4 (case: String.eqb_spec => [-> _|_]; first by simpl; tauto).
  by [].
by move=> /h; apply; exact: lower_same.
Qed.

(* only the class's own parameters matter *)
Theorem C18_other_keywords_ignored s kw kw' :
  (forall k, List.In k [:: "count"; "rtol"; "atol"; "ord"; "confidence"; "S"]%string -> lookup k kw = lookup k kw') ->
  convergence_criterion (CName s) kw = convergence_criterion (CName s) kw'.
Proof.
move=> h; rewrite /convergence_criterion; case: (lookup _ _) => [k|//].
have ok (q : kwargs (pyarg F)) : all (fun p => mem_str p.1 [seq r.1 | r <- signature F k])
           (restrict_kwargs [seq r.1 | r <- signature F k] q) by rewrite /restrict_kwargs filter_all.
rewrite /construct /call_bind !ok /=.
have l q n : lookup n (restrict_kwargs [seq r.1 | r <- signature F k] q) =
   if mem_str n [seq r.1 | r <- signature F k] then lookup n q else None.
  exact: (lookup_filter (fun x => mem_str x _)).
by case: k ok l => ok l /=; rewrite !l /= !h //=; tauto.
Qed.

Lemma construct_restrict k kw :
  construct k (restrict_kwargs [seq r.1 | r <- signature F k] kw) =
  bind (foldr (fun q acc => bind acc (fun b =>
         match lookup q.1 kw, q.2 with
         | Some v, _ | None, Some v => Ok ((q.1, v) :: b)
         | None, None => Err TypeError
         end)) (Ok [::]) (signature F k)) (fun b =>
  match k with
  | KConfidence =>
      match obind (@as_num F) (lookup "confidence"%string b) with
      | None => Err TypeError
      | Some x => if xlt (Fin 0) x && xlt x (Fin 1) then Ok (CObj k b) else Err AssertionError
      end
  | _ => Ok (CObj k b)
  end).
Proof.
have ok : all (fun p => mem_str p.1 [seq r.1 | r <- signature F k])
           (restrict_kwargs [seq r.1 | r <- signature F k] kw) by rewrite /restrict_kwargs filter_all.
have l n : lookup n (restrict_kwargs [seq r.1 | r <- signature F k] kw) =
   if mem_str n [seq r.1 | r <- signature F k] then lookup n kw else None.
  exact: (lookup_filter (fun x => mem_str x _)).
by rewrite /construct /call_bind ok /=; case: k ok l => ok l /=; rewrite !l.
Qed.

Lemma cc_named s w k kw : same_word s w -> lookup (lower w) CRITERIA = Some k ->
  convergence_criterion (CName s) kw =
  bind (construct k (restrict_kwargs [seq r.1 | r <- signature F k] kw)) (fun o => Ok (RBuilt o)).
Proof. by move=> /C18_case_insensitive -> h; rewrite /convergence_criterion h. Qed.

Definition built (r : res (cresult F)) : option (crit F) :=
  if r is Ok (RBuilt o) then crit_of o else None.

Theorem C18_count s kw : same_word s "count" ->
  (lookup "count"%string kw = None -> convergence_criterion (CName s) kw = Err TypeError) /\
  (forall n, lookup "count"%string kw = Some (AInt n) ->
     built (convergence_criterion (CName s) kw) = Some (CCount F n)).
Proof.
move=> hs; rewrite (cc_named _ hs (k := KCount) erefl) construct_restrict /=.
by split=> [-> //|n ->].
Qed.

(* value of a numeric keyword, or its default *)
Definition kwnum (k : string) (d : xnum F) kw : option (xnum F) :=
  match lookup k kw with
  | None => Some d | Some (AInt z) => Some (Fin z%:~R) | Some (ANum x) => Some x | Some _ => None
  end.

Theorem C18_tolerance s kw r a o : same_word s "tolerance" ->
  kwnum "rtol" (Fin (1 / 100%:R)) kw = Some r ->
  kwnum "atol" (Fin (149%:R / 10%:R ^+ 10)) kw = Some a ->
  (match lookup "ord"%string kw with None => Some Ord2 | Some (AOrd x) => Some x | Some ANone => Some OrdNone | _ => None end = Some o) ->
  built (convergence_criterion (CName s) kw) = Some (CTol r a o).
Proof.
move=> hs; rewrite (cc_named _ hs (k := KTolerance) erefl) construct_restrict.
rewrite /kwnum /= /atol_default.
case: (lookup "rtol" kw) => [[z|x||y]|] // [<-]; case: (lookup "atol" kw) => [[z2|x2||y2]|] // [<-];
case: (lookup "ord" kw) => [[z3|x3||y3]|] // [<-] //.
Qed.

Theorem C18_confidence s kw c : same_word s "confidence" ->
  kwnum "confidence" (Fin (19%:R / 20%:R)) kw = Some (Fin c) ->
  (~~ (0 < c < 1) -> convergence_criterion (CName s) kw = Err AssertionError) /\
  (0 < c < 1 -> forall a r,
     (if lookup "atol"%string kw is Some ANone then Some (Fin 0) else kwnum "atol" (Fin 0) kw) = Some a ->
     (if lookup "rtol"%string kw is Some ANone then Some (Fin 0) else kwnum "rtol" (Fin (1 / 100%:R)) kw) = Some r ->
     built (convergence_criterion (CName s) kw) = Some (CConf c a r)).
Proof.
move=> hs hc; rewrite (cc_named _ hs (k := KConfidence) erefl) construct_restrict.
rewrite /kwnum /=.
have [v [-> hv]] : exists v, (fun b : seq (string * pyarg F) => match lookup "confidence" kw with
      | Some v => Ok (("confidence"%string, v) :: b)
      | None => Ok (("confidence"%string, ANum (Fin (19%:R / 20%:R))) :: b) end) =
    (fun b => Ok (("confidence"%string, v) :: b)) /\ as_num v = Some (Fin c).
  move: hc; rewrite /kwnum; case: (lookup "confidence" kw) => [v|] hc; last by eexists; split; [by []|].
  by exists v; split=> //; case: v hc.
split=> [hc'|/andP[h0 h1] a r].
  by case: (lookup "atol" kw) => [?|]; case: (lookup "rtol" kw) => [?|] /=; rewrite hv /= (negPf hc').
case: (lookup "atol" kw) => [[?|?||?]|] //= [<-];
case: (lookup "rtol" kw) => [[?|?||?]|] //= [<-] /=; by rewrite hv /= h0 h1 /= ?/crit_of /= ?hv.
Qed.

Theorem C18_knee s kw x : same_word s "knee" ->
  kwnum "S" (Fin 1) kw = Some (Fin x) ->
  built (convergence_criterion (CName s) kw) = Some (CKnee x).
Proof.
move=> hs; rewrite (cc_named _ hs (k := KKnee) erefl) construct_restrict.
by rewrite /kwnum /=; case: (lookup "S" kw) => [[z|y||y]|] //= [e]; rewrite ?/crit_of /= ?e -?e.
Qed.

Example ex_C18 : same_word "CoUnT" "count" /\
  built (convergence_criterion (CName "Tolerance") [:: ("count"%string, AInt 3); ("rtol"%string, ANum (Fin (2%:R : F)))])
    = Some (CTol (Fin 2%:R) (Fin (149%:R / 10%:R ^+ 10)) Ord2).
Proof. by split; first by rewrite /= /same_letter /=; intuition. Qed.
End Crit.

(* ---- C20 ------------------------------------------------------------------ *)
Section Chunk.
Variable T : Type.
Implicit Type s : seq T.


(* what "successive n-sized chunks" means *)
Definition chunks_of (n : nat) s (cs : seq (seq T)) : Prop :=
  [/\ flatten cs = s,
      (forall k, (k < size cs)%N -> (0 < size (nth [::] cs k) <= n)%N) &
      (forall k, (k.+1 < size cs)%N -> size (nth [::] cs k) = n)].

(* the specification leaves no choice *)
Lemma chunks_of_unique n s cs cs' : chunks_of n s cs -> chunks_of n s cs' -> cs = cs'.
Proof.
elim: cs s cs' => [|c cs IH] s cs' [e1 h1 f1] [e2 h2 f2].
  case: cs' e2 h2 {f2} => [//|c' cs'] /= e2 h2; move: (h2 0%N erefl) => /=.
  by case: c' e2 {h2} => [//|x c'] /=; rewrite -e1.
case: cs' e2 h2 f2 => [|c' cs'] e2 h2 f2.
  by move: (h1 0%N erefl) => /=; rewrite -e2 in e1; case: (c) e1.
have sc : size c = size c'.
  have a1 : size c = n \/ cs = [::].
    by case: (cs) f1 => [|b cs2] f1; [right|left; exact: (f1 0%N)].
  have a2 : size c' = n \/ cs' = [::].
    by case: (cs') f2 => [|b cs2] f2; [right|left; exact: (f2 0%N)].
  have l1 : (size c <= n)%N by case/andP: (h1 0%N erefl).
  have l2 : (size c' <= n)%N by case/andP: (h2 0%N erefl).
  have l : size (flatten (c :: cs)) = size (flatten (c' :: cs')) by rewrite e1 e2.
  move: l; rewrite /= !size_cat.
  case: a1 => [->|e]; case: a2 => [-> //|e']; rewrite ?e ?e' ?addn0 //= => l.
  - by apply/eqP; rewrite eqn_leq l2 -l leq_addr.
  - by apply/eqP; rewrite eqn_leq l1 l leq_addr.
have ec : c = c'.
  have t1 : take (size c) s = c by rewrite -e1 /= take_size_cat.
  have t2 : take (size c) s = c' by rewrite -e2 /= sc take_size_cat.
  by rewrite -t1 t2.
rewrite -ec; congr cons; apply: (IH (drop (size c) s)); split.
- by rewrite -e1 /= drop_size_cat.
- by move=> k hk; exact: (h1 k.+1).
- by move=> k hk; exact: (f1 k.+1).
- by rewrite -e2 /= sc drop_size_cat.
- by move=> k hk; exact: (h2 k.+1).
- by move=> k hk; exact: (f2 k.+1).
Qed.

Lemma chunk_loop_ok f n s : (0 < n)%N -> (size s < f)%N -> chunks_of n s (chunk_loop f n s).
Proof.
move=> n0; elim: f s => [//|f IH] s hs.
case: s hs => [|x s] hs; first by rewrite /=.
have E : chunk_loop f.+1 n (x :: s) = take n (x :: s) :: chunk_loop f n (drop n (x :: s)).
  by rewrite /=; case: (n) n0.
have dl : (size (drop n (x :: s)) < f)%N.
  by rewrite size_drop; case: (n) n0 => //= m _; rewrite subSS (leq_ltn_trans (leq_subr _ _)).
rewrite E; have [e h g] := IH _ dl; split.
- by rewrite /= e cat_take_drop.
- case=> [_|k hk] /=; last exact: h.
  by rewrite size_take; case: ifP => [_|/negbT]; rewrite ?n0 ?leqnn // -leqNgt => ->.
- case=> [|k] /= hk; last exact: g.
  rewrite size_take; case: ifP => // /negbT; rewrite -leqNgt => hn.
  by move: hk; rewrite drop_oversize //; case: (f).
Qed.

(* ordinary iterables *)
Theorem C20_chunks s n : 1 <= n ->
  exists cs, chunk false s n = Ok cs /\ chunks_of `|n| s cs.
Proof.
move=> hn; exists (chunk_loop (size s).+1 `|n|%N s); rewrite /chunk hn; split=> //.
by apply: chunk_loop_ok => //; case: n hn => [[]|].
Qed.

Theorem C20_bad_length b s n : n < 1 -> chunk b s n = Err AssertionError.
Proof. by rewrite /chunk ltNge => ->. Qed.

(* ndarrays: always three pieces, whatever n, nearly equal, in order *)
Lemma sum_split len : (\sum_(j < 3) split_size len 3 j)%N = len.
Proof.
by rewrite !big_ord_recl big_ord0 /split_size /= /bump /=; lia.
Qed.

Theorem C20_ndarray_three_pieces s n : 1 <= n ->
  exists cs, [/\ chunk true s n = Ok cs, size cs = 3%N, flatten cs = s &
    forall i, (i < 3)%N -> size (nth [::] cs i) = (size s %/ 3 + (i < size s %% 3))%N].
Proof.
move=> hn; exists (array_split 3 s); rewrite /chunk hn; split=> //.
- rewrite /array_split /mkseq /= !big_ord_recl !big_ord0 /= !addn0 drop0.
  set a := split_size _ _ 0; set b := split_size _ _ 1; set c := split_size _ _ 2.
  have tot : (a + (b + c))%N = size s.
    by rewrite -[RHS]sum_split !big_ord_recl big_ord0 /= addn0 /bump /=.
  have -> : take c (drop (a + b) s) = drop (a + b) s.
    by rewrite take_oversize // size_drop -tot addnA addKn.
  by rewrite cats0 [(a + b)%N]addnC -drop_drop !cat_take_drop.
- move=> i hi; rewrite nth_mkseq // size_take size_drop.
  have le : (\sum_(j < i) split_size (size s) 3 j + split_size (size s) 3 i <= size s)%N.
    rewrite -[X in (_ <= X)%N]sum_split.
    by case: i hi => [|[|[|//]]] _; rewrite !big_ord_recl !big_ord0 /split_size /= /bump /=; lia.
  have {}le : (split_size (size s) 3 i <= size s - \sum_(j < i) split_size (size s) 3 j)%N.
    by rewrite leq_subRL ?(leq_trans _ le) ?leq_addr.
  by rewrite -/(minn _ _) (minn_idPl le).
Qed.
End Chunk.

(* so the chunk-size promise fails for ndarrays *)
Theorem C20_ndarray_chunks_refuted :
  ~ (forall (s : seq nat) n cs, 1 <= n -> chunk true s n = Ok cs -> chunks_of `|n| s cs).
Proof.
move/(_ [:: 0; 1; 2; 3]%N 2 _ erefl erefl) => [_ _ /(_ 1%N erefl)].
by rewrite /= !big_ord_recl !big_ord0 /=.
Qed.

Example ex_C20 : chunk false [:: 1; 2; 3; 4; 5]%N 2 = Ok [:: [:: 1; 2]; [:: 3; 4]; [:: 5]]%N.
Proof. by []. Qed.

Print Assumptions C18_object_unchanged.
Print Assumptions C18_case_insensitive.
Print Assumptions C18_unknown_rejected.
Print Assumptions C18_other_keywords_ignored.
Print Assumptions C18_count.
Print Assumptions C18_tolerance.
Print Assumptions C18_confidence.
Print Assumptions C18_knee.
Print Assumptions C19_kwargs_partition.
Print Assumptions C19_kwargs_lookup.
Print Assumptions C20_chunks.
Print Assumptions C20_bad_length.
Print Assumptions C20_ndarray_three_pieces.
Print Assumptions C20_ndarray_chunks_refuted.
