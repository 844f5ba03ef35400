(** * Property C81: iterating over a dictionary when memory runs out. *)
From Coq Require Import Permutation.
From Verif Require Import Base Spec ModelTransducer ModelDawg ModelState ModelIterator SpecIterator.
From Verif Require Import SpecThrow ModelThrow ModelIterThrow SpecIterThrow SpecDawg SpecQuery.
From Verif Require Import TreeProofs HeapProofs IterProofs PointerProofs MemoryProofs ThrowProofs IteratorProofs IterThrowProofs.
From Verif Require Import QueryFacts PropsState PropsDawg PropsQuery.
Local Open Scope nat_scope.

Lemma going_start h d t p : unf h (d_root d) t ->
  going h [(p, PCell (d_root d) null Ascii.zero)] (DIter [p] [p] [] 0) [([], t)] (tsize t).
Proof.
  intros U. constructor; cbn; auto.
  - constructor; [|constructor]. exists (d_root d). split; [|exact U]. cbn. eapply spells_root. left. reflexivity.
  - constructor; [cbn; lia|constructor].
  - unfold qsize. cbn. lia.
Qed.

Lemma adds_leak m base lk n : adds m base lk -> length lk <= n -> leaks_at_most n m base.
Proof.
  intros (A1 & A2 & A3 & A4) L. exists (map fst lk). split; [now rewrite map_length|]. split; [exact A1|]. split; [|exact A3].
  intros p I. apply in_map_iff in I. destruct I as ([q x] & <- & I). destruct (A2 q x I) as (_ & B & C). split; [exact B|].
  cbn. rewrite C. discriminate.
Qed.

(** ** C81: increments that throw

    The iterator is incremented any number of times, and memory may run out at
    any allocation of any increment; the program catches std::bad_alloc and goes
    on.  The increments that return show some of the terms that follow the first
    one, in the order of the listing ([kept]), and after the last of them that one
    again and again; nothing is left out if no increment throws.  The iterator
    equals end() after size() increments that return, whether or not terms were
    left out.  There is no undefined behaviour, what was allocated before stays,
    and destroying the iterator frees everything but at most one prefix for each
    increment that threw. *)
Theorem C81_increments : forall alloc terms h d base bs, mallocator alloc -> dictionary terms h d ->
  exists listed, (forall w, In w listed <-> In w terms) /\ sorted_by shortlex_lt listed /\
  exists enough, forall fuel, enough <= fuel ->
  exists m it m1 it1 seen kept m2,
    diter_begin fuel alloc h base d = Ok (m, it) /\ di_value it = hd [] listed /\
    increments fuel alloc h m it bs = Ok (m1, it1, seen) /\ length seen = length bs /\
    (forall k, nth_error seen k = Some None -> exists n, nth_error bs k = Some (Some n)) /\
    subsequence kept (tl listed) /\ (~ In None seen -> kept = tl listed) /\
    (forall j v, nth_error (returned seen) j = Some v -> v = nth j kept (last kept (hd [] listed))) /\
    (N.of_nat (length terms) < 2 ^ 64 -> N.of_nat (length bs) < 2 ^ 64 ->
      (diter_eq it1 (diter_end d) = true <-> length (returned seen) = length terms))%N /\
    (forall p x, mget base p = Some x -> mget m1 p = Some x) /\
    diter_destroy m1 it1 = Ok m2 /\ leaks_at_most (thrown seen) m2 base.
Proof.
  intros alloc terms h d base bs HA D. destruct (dictionary_unf _ _ _ D) as (U & As & Sz).
  pose proof (trie_sorted terms) as TS.
  exists (words (trie terms)). split; [intros w; rewrite words_In by auto; apply tin_trie|].
  split; [apply StronglySorted_sorted_by, words_sorted; auto|].
  exists (tsize (trie terms) + 1). intros fuel Hf. unfold diter_begin.
  destruct (mget_mnew base (PCell (d_root d) null Ascii.zero) HA) as (p & m0 & E & G1 & G2 & G3 & G4 & G5).
  rewrite E. set (o := (p, PCell (d_root d) null Ascii.zero)).
  assert (Ha1 : adds m0 base ([o] ++ [])).
  { cbn. eapply adds_one; eauto. apply adds_nil, alike_refl. }
  destruct (@diter_advance_ok alloc h HA base [] (tsize (trie terms)) fuel m0 [o] (DIter [p] [p] [] 0) [([], trie terms)] Ha1
    (going_start h d (trie terms) p U) ltac:(lia)) as (m & os & it & q & E2 & Ha2 & Gq & Ix & V & En).
  destruct (@increments_ok alloc h HA base (tsize (trie terms)) fuel bs ltac:(lia) m os [] it q Ha2 Gq)
    as (m1 & it1 & seen & os1 & lk & q1 & kept & E3 & Le & Th & Ha3 & Gq1 & Lk & Ix1 & Sub & Al & Sh).
  { rewrite Ix. reflexivity. }
  destruct (@delete_prefixes_ok base lk os1 m1 Ha3) as (m2 & E4 & Ha4).
  change (enum [([], trie terms)]) with (words (trie terms)) in *.
  assert (Hd : next_value [] (words (trie terms)) = hd [] (words (trie terms))) by (destruct (words (trie terms)); reflexivity).
  cbn [di_value di_index] in V, Ix. rewrite Hd in V. rewrite En in Sub, Al. unfold shows in Sh. rewrite V in Sh.
  exists m, it, m1, it1, seen, kept, m2. split; [exact E2|]. split; [exact V|]. split; [exact E3|]. split; [exact Le|].
  split; [exact Th|]. split; [exact Sub|]. split; [exact Al|]. split; [exact Sh|]. split.
  { intros L1 L2. unfold diter_eq, diter_end. cbn [di_index]. rewrite Ix1, Ix, Sz, N.add_0_l. change Base.W with (2 ^ 64)%N.
    pose proof (returned_le seen). rewrite !N.mod_small by lia. rewrite N.eqb_eq. lia. }
  split; [intros p' x G; eapply adds_preserved; eauto|]. unfold diter_destroy. rewrite (go_own Gq1). split; [exact E4|].
  eapply adds_leak; [exact Ha4|]. cbn in Lk. exact Lk.
Qed.
Print Assumptions C81_increments.

(** Beginning: either as without limits, or an exception, and what was allocated
    before stays. *)
Theorem C81_begin : forall alloc terms h d base b, mallocator alloc -> dictionary terms h d ->
  exists enough, forall fuel, enough <= fuel ->
  exists left m r, try_diter_begin fuel alloc h b base d = Ok (left, m, r) /\
    (forall p x, mget base p = Some x -> mget m p = Some x) /\
    match r with
    | Some it => diter_begin fuel alloc h base d = Ok (m, it)
    | None => b <> None
    end.
Proof.
  intros alloc terms h d base b HA D. destruct (dictionary_unf _ _ _ D) as (U & As & Sz).
  exists (tsize (trie terms) + 1). intros fuel Hf.
  destruct (try_diter_begin fuel alloc h b base d) as [[[left m] r]| |] eqn:E0.
  1: exists left, m, r; split; [reflexivity|].
  all: pose proof E0 as Eq; unfold try_diter_begin in E0.
  all: destruct (spend b) as [b1|] eqn:S0; [|try discriminate].
  2: { injection E0 as <- <- <-. split; [auto|]. now apply spend_none. }
  all: destruct (mget_mnew base (PCell (d_root d) null Ascii.zero) HA) as (p & m0 & E & G1 & G2 & G3 & G4 & G5).
  all: rewrite E in E0; set (o := (p, PCell (d_root d) null Ascii.zero)) in *.
  all: assert (Ha1 : adds m0 base ([o] ++ [])) by (cbn; eapply adds_one; eauto; apply adds_nil, alike_refl).
  all: destruct (spend b1) as [b2|] eqn:S1; [|try discriminate].
  2: { injection E0 as <- <- <-. split; [intros q x; apply (adds_preserved Ha1)|].
       eapply spend_from; eauto. now apply spend_none. }
  all: destruct (spend b2) as [b3|] eqn:S2; [|try discriminate].
  2: { injection E0 as <- <- <-. split; [intros q x; apply (adds_preserved Ha1)|].
       eapply spend_from; eauto. eapply spend_from; eauto. now apply spend_none. }
  all: destruct (@try_diter_advance_ok alloc h HA base (tsize (trie terms)) fuel b3 m0 [o] [] (DIter [p] [p] [] 0) [([], trie terms)] Ha1
    (going_start h d (trie terms) p U) ltac:(lia)) as (b4 & m2 & os & extra & it & q & done & E2 & Ha2 & Gq & Ix & Dn).
  all: rewrite E2 in E0; cbn [rbind] in E0; try discriminate.
  injection E0 as <- <- <-. split; [intros q' x; apply (adds_preserved Ha2)|].
  destruct done; [|].
  - eapply try_diter_begin_same. exact Eq.
  - eapply spend_from; eauto. eapply spend_from; eauto. eapply spend_from; eauto. apply Dn.
Qed.
Print Assumptions C81_begin.

(** ** Nothing is freed while an iterator advances *)
Lemma push_keeps alloc p q x : mallocator alloc -> forall edges b m ps pe b' m' ps' pe' done,
  try_push_children alloc b m p edges ps pe = (b', m', ps', pe', done) -> mget m q = Some x -> mget m' q = Some x.
Proof.
  intros HA. induction edges as [|[c t] edges IH]; intros b m ps pe b' m' ps' pe' done H G; cbn [try_push_children] in H; [congruence|].
  destruct (spend b) as [b1|]; [|congruence].
  destruct (mget_mnew m (PCell t p c) HA) as (child & m1 & E & G1 & G2 & G3 & G4 & G5). rewrite E in H.
  assert (G' : mget m1 q = Some x) by (rewrite G4; [exact G|intros ->; congruence]).
  destruct (spend b1) as [b2|]; [|congruence]. destruct (spend b2) as [b3|]; [|congruence]. eauto.
Qed.

Lemma loop_keeps alloc h q x : mallocator alloc -> forall rounds b m ps pe b' m' ps' pe' r,
  try_diter_loop alloc h rounds b m ps pe = Ok (b', m', ps', pe', r) -> mget m q = Some x -> mget m' q = Some x.
Proof.
  intros HA. induction rounds as [|rounds IH]; intros b m ps pe b' m' ps' pe' r H G; cbn in H; [discriminate|].
  destruct pe as [|pre rest]; [discriminate|]. destruct (mread m pre) as [y| |]; try discriminate. cbn [rbind] in H.
  destruct (spend b) as [b1|]; [|congruence]. destruct (read h (pc_node y)) as [n| |]; try discriminate. cbn [rbind] in H.
  destruct (try_push_children alloc b1 m pre (nedges n) ps rest) as [[[[b2 m1] ps1] pe1] done] eqn:E.
  pose proof (push_keeps _ _ _ _ HA _ _ _ _ _ _ _ _ _ _ E G) as G1.
  destruct done; cbn in H; [|congruence]. destruct (nfin n); [congruence|]. destruct pe1; [congruence|eauto].
Qed.

(** "If begin() throws, nothing is left behind" is false: as soon as one
    allocation has succeeded, memory is lost, because the destructor of an
    iterator that was not constructed is not run. *)
Theorem C81_begin_refuted : forall fuel alloc h d base k left m, mallocator alloc ->
  try_diter_begin fuel alloc h (Some (S k)) base d = Ok (left, m, None) ->
  exists p x, mget base p = None /\ mget m p = Some x.
Proof.
  intros fuel alloc h d base k left m HA H. unfold try_diter_begin in H. cbn [spend] in H.
  destruct (mget_mnew base (PCell (d_root d) null Ascii.zero) HA) as (p & m0 & E & G1 & G2 & G3 & G4 & G5). rewrite E in H.
  exists p, (PCell (d_root d) null Ascii.zero). split; [exact G2|].
  destruct k as [|[|k]]; cbn [spend] in H; [injection H as _ <-; exact G3|injection H as _ <-; exact G3|].
  destruct (try_diter_advance fuel alloc h (Some k) m0 (DIter [p] [p] [] 0)) as [[[[b4 m2] it] done]| |] eqn:E2; try discriminate.
  cbn [rbind] in H. destruct done; [discriminate|]. injection H as _ <-. unfold try_diter_advance in E2. cbn [di_pending di_prefixes] in E2.
  destruct (try_diter_loop alloc h fuel (Some k) m0 [p] [p]) as [[[[[b5 m3] ps] pe] r]| |] eqn:El; try discriminate.
  pose proof (loop_keeps _ _ _ _ HA _ _ _ _ _ _ _ _ _ _ El G3) as G6. cbn [rbind] in E2.
  destruct r as [[pre n]|]; [|injection E2 as _ <- _; exact G6]. destruct (nfin n); [|discriminate].
  destruct (spend b5); [|injection E2 as _ <- _; exact G6]. destruct (pcell_str fuel m3 pre); discriminate.
Qed.
Print Assumptions C81_begin_refuted.

(** "An increment that threw can be made again" is false: over {a, ab, cab, cb},
    when the first increment throws before anything is pushed, the next ones
    show [ab] four times, and only then does the iterator equal end(); [cab] and
    [cb] are never shown. *)
Theorem C81_retry_refuted : mallocator (@bump pcell) /\ dictionary some_terms example_heap example_dawg /\
  exists m it m1 it1 m2,
  diter_begin 40 bump example_heap [] example_dawg = Ok (m, it) /\ di_value it = sa /\
  increments 40 bump example_heap m it [Some 0; None; None; None; None] =
    Ok (m1, it1, [None; Some sab; Some sab; Some sab; Some sab]) /\
  diter_eq it1 (diter_end example_dawg) = true /\
  diter_destroy m1 it1 = Ok m2 /\ in_use m2 = [].
Proof.
  split; [apply mallocator_bump|]. split; [exact example_dictionary|].
  eexists _, _, _, _, _. run. run. run. run. run. vm_compute. reflexivity.
Qed.
Print Assumptions C81_retry_refuted.

(** An increment that leaks: the new prefix is not in [_prefixes] yet. *)
Example C81_case : exists m it m1 it1 m2,
  diter_begin 40 bump example_heap [] example_dawg = Ok (m, it) /\ di_value it = sa /\
  increments 40 bump example_heap m it [Some 2; None; None] = Ok (m1, it1, [None; Some sab; Some sab]) /\
  diter_destroy m1 it1 = Ok m2 /\ length (in_use m2) = 1.
Proof. eexists _, _, _, _, _. run. run. run. run. vm_compute. reflexivity. Qed.

(** Beginning with three allocations throws and leaks the prefix of the root;
    with twenty it is as without limits. *)
Example C81_begin_case :
  (exists m, try_diter_begin 40 bump example_heap (Some 3) [] example_dawg = Ok (Some 0, m, None) /\ length (in_use m) = 1) /\
  (exists m it left, try_diter_begin 40 bump example_heap (Some 20) [] example_dawg = Ok (left, m, Some it) /\
     di_value it = sa).
Proof. split; [eexists; run; vm_compute; reflexivity|]. eexists _, _, _. run. vm_compute. reflexivity. Qed.
