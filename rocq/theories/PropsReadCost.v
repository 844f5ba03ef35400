(** * PropsReadCost: what looking up a term and iterating cost (C98). *)
From Coq Require Import Sorting.Sorted Sorting.Permutation.
From Verif Require Import Base Spec ModelTransducer ModelDawg ModelReadCost SpecDawg SpecQuery SpecCost SpecUseCost TreeProofs HeapProofs IterProofs DawgProofs BoundProofs
  IterHoldProofs ReadCostProofs QueryFacts PropsDawg PropsQuery.
Local Open Scope nat_scope.

Lemma full_prefix terms w : tin (full (trie terms)) w = true <-> is_prefix terms w.
Proof.
  unfold is_prefix. destruct w as [|c w]; [split; [auto|]; intros _; destruct (trie terms); reflexivity|].
  rewrite tin_full_trie. split; [auto|]. intros [X|X]; [discriminate|exact X].
Qed.

(** [contains] calls DawgNode::transition once for each part of the term that is
    followed by another character and with which a term of the dictionary begins:
    at most once per character, however many terms there are. *)
Theorem C98_contains : forall terms h d w, dictionary terms h d -> (N.of_nat (length w) <= INT_MAX)%N ->
  exists answer calls,
    contains h d w = Ok answer /\ c_contains h d w = Ok (answer, calls) /\
    NoDup calls /\ (forall v, In v calls <-> is_prefix terms v /\ exists c u, w = v ++ c :: u) /\
    length calls <= length w.
Proof.
  intros terms h d w D L. destruct (dictionary_unf _ _ _ D) as (U & _).
  destruct (c_contains_ok h d _ w U L) as [E1 E2]. exists (tin (trie terms) w), (path (trie terms) w).
  split; [exact E1|]. split; [exact E2|]. split; [apply path_nodup|]. split; [|apply path_length].
  intros v. rewrite path_in, full_prefix. reflexivity.
Qed.
Print Assumptions C98_contains.

(** An iterator that has been incremented [k] times has looked at exactly the prefixes
    that do not come after its current term, shorter ones first and each once. *)
Theorem C98_iterate : forall terms h d, dictionary terms h d ->
  exists listed, (forall w, In w listed <-> In w terms) /\ sorted_by shortlex_lt listed /\
  forall k, exists it taken,
    runs_to (fun fuel => c_iterator k fuel h d) (it, taken) /\
    sorted_by shortlex_lt taken /\
    (forall w, In w taken <-> is_prefix terms w /\
       match nth_error listed k with Some shown => w = shown \/ shortlex_lt w shown | None => True end) /\
    (forall shown, nth_error listed k = Some shown -> it_value it = shown).
Proof.
  intros terms h d D. destruct (dictionary_unf _ _ _ D) as (U & _). pose proof (trie_sorted terms) as TS. set (t := trie terms) in *.
  exists (words t). split; [intros w; rewrite words_In by auto; apply tin_trie|].
  split; [apply StronglySorted_sorted_by, words_sorted; auto|]. intros k.
  destruct (c_iterator_ok h d t (S (tsize t)) k U (le_n _)) as (it & P & E & q & _ & _ & _ & Po & Sh).
  exists it, P.
  assert (Sq : qsorted [([], t)]) by (repeat constructor; auto).
  assert (Sb : StronglySorted before [([], t)]) by (repeat constructor).
  assert (Fl : forall w, In w (enum (fullq [([], t)])) <-> is_prefix terms w).
  { intros w. change (enum (fullq [([], t)])) with (words (full t)). rewrite words_In by (apply full_sorted; auto). apply full_prefix. }
  split. { exists (S (tsize t)). intros fuel Hf. eapply c_iterator_mono; eauto. }
  split.
  { apply StronglySorted_sorted_by. pose proof (enum_sorted _ (qsorted_full Sq) (before_full Sb)) as So. rewrite (pops_enum Po) in So.
    apply (sorted_app So). }
  split; [|intros s X; rewrite X in Sh; apply Sh].
  intros w. destruct (nth_error (words t) k) as [s|].
  - destruct Sh as (_ & P' & ->). rewrite (pops_upto Po Sq Sb), Fl. reflexivity.
  - subst q. pose proof (pops_enum Po) as X. change (fullq []) with (@nil (list ascii * tree)) in X. rewrite enum_nil, app_nil_r in X.
    rewrite <- X, Fl. tauto.
Qed.
Print Assumptions C98_iterate.

(** The whole iteration looks at each prefix once. *)
Theorem C98_all : forall terms h d prefixes, dictionary terms h d -> lists_prefixes terms prefixes ->
  exists k0, forall k, k0 <= k -> exists it taken,
    runs_to (fun fuel => c_iterator k fuel h d) (it, taken) /\ Permutation taken prefixes.
Proof.
  intros terms h d prefixes D [Np Hp]. destruct (C98_iterate terms h d D) as (listed & _ & _ & H). exists (length listed). intros k Hk.
  destruct (H k) as (it & taken & R & So & I & _). exists it, taken. split; [exact R|]. apply NoDup_Permutation; auto.
  - apply sorted_by_StronglySorted in So; [|exact shortlex_trans]. now apply StronglySorted_NoDup in So; [|exact shortlex_irrefl].
  - intros w. rewrite I, Hp. replace (nth_error listed k) with (@None str) by (symmetry; now apply nth_error_None). unfold is_prefix. tauto.
Qed.
Print Assumptions C98_all.

(** That the numbers above are those of the functions of ModelDawg. *)
Fixpoint plain_increments (k fuel : nat) (h : heap) (it : iter) : res iter :=
  match k with O => Ok it | S k' => do it1 <- iter_next fuel h it; plain_increments k' fuel h it1 end.

Lemma increments_same fuel h : forall k it, plain_increments k fuel h it = (do (it', taken) <- c_increments k fuel h it; Ok it').
Proof.
  induction k as [|k IH]; intros it; cbn [plain_increments c_increments]; [reflexivity|]. unfold iter_next at 1. rewrite c_advance_erase.
  destruct (c_advance fuel h it) as [[it1 P]| |]; cbn [rbind]; try reflexivity. rewrite IH.
  destruct (c_increments k fuel h _) as [[it2 P2]| |]; reflexivity.
Qed.

Theorem C98_same : forall k fuel h d,
  (do it <- dawg_begin fuel h d; plain_increments k fuel h it) = (do (it, taken) <- c_iterator k fuel h d; Ok it).
Proof.
  intros k fuel h d. unfold dawg_begin, c_iterator. rewrite c_advance_erase.
  destruct (c_advance fuel h _) as [[it P]| |]; cbn [rbind]; try reflexivity. rewrite increments_same.
  destruct (c_increments k fuel h it) as [[it2 P2]| |]; reflexivity.
Qed.
Print Assumptions C98_same.

(** {a, ab, cab, cb}: looking up "cac" follows "", "c" and "ca"; to come from "ab" to
    "cb" the iterator looks at "ca" and "cb". *)
Example C98_case : dictionary some_terms example_heap example_dawg /\
  c_contains example_heap example_dawg (lit "cac") = Ok (false, [lit ""; lit "c"; lit "ca"]) /\
  c_contains example_heap example_dawg (lit "bcd") = Ok (false, [lit ""]) /\
  exists it it', c_iterator 1 30 example_heap example_dawg = Ok (it, [lit ""; lit "a"; lit "c"; lit "ab"]) /\
    c_iterator 2 30 example_heap example_dawg = Ok (it', [lit ""; lit "a"; lit "c"; lit "ab"; lit "ca"; lit "cb"]).
Proof. split; [exact example_dictionary|]. run. run. eexists _, _. run. vm_compute. reflexivity. Qed.
