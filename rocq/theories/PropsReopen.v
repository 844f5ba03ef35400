(** * PropsReopen: adding to a dictionary that is there already (C108). *)
From Coq Require Import Sorting.Sorted Permutation.
From Verif Require Import Base Spec ModelHash ModelDawg ModelSerial SpecDawg SpecQuery SpecAlike TreeProofs HeapProofs
  BuildProofs BuildProofs2 IterProofs DawgProofs PropsDawg SpecResume ResumeProofs PropsResume.
From Verif Require QueryFacts PropsQuery.

(** ** C108: init(), then any calls of add, finish and minimize, on a dictionary
    that was built before, perhaps saved and loaded. *)
Theorem C108_continued : forall alloc terms h b l flags stored, allocator alloc ->
  dictionary terms h (b_dawg b) -> tale (b_prev b) [] terms l flags stored ->
  exists h' b', runs_to (fun fuel => continued fuel alloc h b l) (flags, h', b') /\
    (forall w, (N.of_nat (length w) <= INT_MAX)%N ->
       exists answer, contains h' (b_dawg b') w = Ok answer /\ (answer = true <-> In w stored)) /\
    d_size (b_dawg b') = (N.of_nat (length stored) mod W)%N /\
    (forall terms' h2 d2, dictionary terms' h2 d2 -> Permutation stored terms' -> alike h' (b_dawg b') h2 d2) /\
    exists h2, runs_to (fun fuel => destroy fuel h' b') h2 /\
      (forall p, reach h (d_root (b_dawg b)) p -> hget h2 p = None) /\
      (forall p, ~ reach h (d_root (b_dawg b)) p -> hget h2 p = hget h p).
Proof.
  intros alloc terms h b l flags stored A D T.
  destruct (QueryFacts.dictionary_unf _ _ _ D) as (U & _ & S).
  destruct (continued_ok alloc h b l flags terms stored A U S T) as (h' & b' & R & U' & S' & _ & _ & De).
  exists h', b'. split; [auto|]. split; [|split; [auto|split; [|auto]]].
  - intros v L. exists (tin (trie stored) v). split; [|apply tin_trie]. apply contains_ok; auto.
  - apply trie_alike; auto.
Qed.
Print Assumptions C108_continued.

(** More terms in order, none of which begins with the character a term of the
    dictionary begins with: they are all accepted and join those of the dictionary. *)
Theorem C108_more : forall alloc terms h b ts, allocator alloc ->
  dictionary terms h (b_dawg b) -> b_prev b = [] \/ In (b_prev b) terms ->
  sorted_by lex_le (b_prev b :: ts) ->
  (forall c x y, In (c :: x) terms -> ~ In (c :: y) ts) ->
  exists h' b', runs_to (fun fuel => continued fuel alloc h b (map Enter ts)) (map (fun _ => true) ts, h', b') /\
    (forall w, (N.of_nat (length w) <= INT_MAX)%N ->
       exists answer, contains h' (b_dawg b') w = Ok answer /\ (answer = true <-> In w terms \/ In w ts)) /\
    d_size (b_dawg b') = (N.of_nat (length terms + length ts) mod W)%N /\
    (forall terms' h2 d2, dictionary terms' h2 d2 -> Permutation (terms ++ ts) terms' -> alike h' (b_dawg b') h2 d2) /\
    exists h2, runs_to (fun fuel => destroy fuel h' b') h2 /\
      (forall p, reach h (d_root (b_dawg b)) p -> hget h2 p = None) /\
      (forall p, ~ reach h (d_root (b_dawg b)) p -> hget h2 p = hget h p).
Proof.
  intros alloc terms h b ts A D Pr So Ap.
  destruct (C108_continued alloc terms h b (map Enter ts) (map (fun _ => true) ts) (terms ++ ts) A D) as (h' & b' & R & C & S & Al & De).
  { apply tale_more; auto. }
  exists h', b'. split; [auto|]. split; [|split; [|split; auto]].
  - intros w L. destruct (C w L) as (a & E & I). exists a. split; auto. rewrite I, in_app_iff. tauto.
  - rewrite S, app_length. auto.
Qed.
Print Assumptions C108_more.

(** ** Examples *)

(** The dictionary of "a", "ab", "cab", "cb", written out and read into another
    memory. *)
Definition saved : message := Eval vm_compute in
  match to_protobuf 20 PropsQuery.example_heap PropsQuery.example_dawg with Ok m => m | _ => Message [] [] [] 0 0 end.
Definition loaded_heap : heap := Eval vm_compute in match from_protobuf bump [] saved with Ok (h, _) => h | _ => [] end.
Definition loaded : builder := Eval vm_compute in
  match from_protobuf bump [] saved with Ok (_, b) => b | _ => Builder (Dawg null 0) [] None end.

Ltac go := exists 20; intros fuel H; do 20 (destruct fuel as [|fuel]; [lia|]); vm_compute; reflexivity.

Example loaded_dictionary : dictionary some_terms loaded_heap (b_dawg loaded).
Proof.
  apply (dictionary_restored _ bump _ _ saved [] loaded_heap loaded PropsQuery.example_dictionary).
  - go.
  - exact bump_allocator.
  - vm_compute. reflexivity.
Qed.

(** "ba" and "bb" are added to it, which come before some of its terms. *)
Definition more_terms : list str := [lit "ba"; lit "bb"].

Example C108_case : b_prev loaded = [] /\ sorted_by lex_le (b_prev loaded :: more_terms) /\
  (forall c x y, In (c :: x) some_terms -> ~ In (c :: y) more_terms) /\
  exists h b, continued 20 bump loaded_heap loaded (map Enter more_terms) = Ok ([true; true], h, b) /\
    contains h (b_dawg b) scab = Ok true /\ contains h (b_dawg b) (lit "bb") = Ok true /\ d_size (b_dawg b) = 6%N.
Proof.
  split; [reflexivity|]. split; [|split].
  - unfold more_terms. cbn [loaded b_prev]. ascending_tac.
  - intros c x y I J. repeat (destruct I as [I|I]; [injection I as <- _; repeat (destruct J as [J|J]; [discriminate|]); destruct J|]). destruct I.
  - eexists _, _. run. run. run. vm_compute. reflexivity.
Qed.

(** A dictionary that has been loaded, and a further term that begins like some of
    its terms: it is accepted, and the old terms that begin so are gone, though the
    size still counts them. *)
Theorem C108_lost_refuted : exists alloc terms h b t w h' b', allocator alloc /\
  dictionary terms h (b_dawg b) /\ b_prev b = [] /\ In w terms /\ (forall u, In u terms -> lex_lt u t) /\
  runs_to (fun fuel => continued fuel alloc h b [Enter t]) ([true], h', b') /\
  contains h' (b_dawg b') t = Ok true /\ contains h' (b_dawg b') w = Ok false /\
  d_size (b_dawg b') = (d_size (b_dawg b) + 1)%N.
Proof.
  exists bump, some_terms, loaded_heap, loaded, (lit "cc"), scab.
  eexists _, _. split; [exact bump_allocator|]. split; [exact loaded_dictionary|]. split; [reflexivity|].
  split; [cbn; auto|]. split.
  { intros u I. apply str_ltb_lex. repeat (destruct I as [<-|I]; [reflexivity|]). destruct I. }
  split; [go|]. run. run. vm_compute. reflexivity.
Qed.
Print Assumptions C108_lost_refuted.
