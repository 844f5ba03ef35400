(** * PropsUnfinished: saving, loading, comparing and hashing a dictionary that is
    still being built (C85).

    [findable] (SpecSnapshot): the accepted terms that do not begin like the one
    accepted last. *)
From Coq Require Import Sorting.Sorted.
From Verif Require Import Base Spec ModelHash ModelTransducer ModelDawg ModelQuery ModelSerial SpecDawg SpecQuery SpecSerial SpecOutlive SpecSnapshot AlignProofs
  TransProofs StateProofs TreeProofs HeapProofs BuildProofs BuildProofs2 IterProofs DawgProofs SerialProofs QueryProofs
  QueryFacts OutliveProofs SnapshotProofs PropsDawg PropsQuery PropsSerial.
Local Open Scope nat_scope.

(** ** The nodes below the root of a dictionary under construction *)
Definition findableb (kept : list str) (w : str) : bool :=
  match w, last kept [] with c :: _, d :: _ => negb (ceqb c d) | _, _ => true end.

Lemma findableb_spec : forall kept w, In w (filter (findableb kept) kept) <-> findable kept w.
Proof.
  intros kept w. rewrite filter_In. unfold findable, findableb. destruct w as [|c w]; [tauto|]. destruct (last kept []) as [|d l]; [tauto|].
  destruct (ceqb_spec c d) as [[-> E]|[N E]]; rewrite E; cbn; intuition congruence.
Qed.

Lemma unfinished_trie : forall alloc h0 history, allocator alloc ->
  exists flags kept h b shown,
    greedy [] history flags kept /\
    runs_to (fun fuel => under_construction fuel alloc h0 history) (flags, h, b) /\
    (forall w, In w shown <-> findable kept w) /\ incl shown kept /\
    d_size (b_dawg b) = (N.of_nat (length kept) mod W)%N /\
    unf h (d_root (b_dawg b)) (trie shown) /\
    (forall p, allocated h0 p -> hget h p = hget h0 p).
Proof.
  intros alloc h0 history A.
  destruct (longest history (fun _ => True)) as (B & _ & HB); auto.
  destruct (under_construction_at alloc h0 history (S B) A) as (flags & kept & h & b & w & frs & t0 & G & E & BI & P & Sz); [lia| |].
  { intros t I. specialize (HB t I). lia. }
  destruct (unfinished_useful _ _ _ _ _ _ _ _ BI (trie_useful kept)) as (tr & U & Us & _ & I).
  exists flags, kept, h, b, (filter (findableb kept) kept). split; auto. split; [exists (S B); auto|].
  split; [apply findableb_spec|]. split; [intros v J; apply filter_In in J; apply J|]. split; auto.
  split.
  - rewrite <- (tree_ext tr (trie (filter (findableb kept) kept))); auto using trie_sorted, trie_useful.
    + eapply unf_tsorted; eauto.
    + apply tin_bool_ext. intros v. rewrite I, !tin_trie, findableb_spec, P. reflexivity.
  - intros p Al. destruct BI as [_ Iv _ _ _ _]. apply (iv_base _ _ _ _ _ _ _ Iv). intros J. apply Al. apply (iv_own _ _ _ _ _ _ _ Iv _ J).
Qed.

Lemma greedy_incl : forall prev ts flags kept, greedy prev ts flags kept -> incl kept ts.
Proof. induction 1; intros v I; [contradiction| |right; auto]. destruct I as [<-|I]; [left|right]; auto. Qed.

(** The hash code of a dictionary, as a function of its size and terms. *)
Lemma dawg_hash_unf : forall h d t, unf h (d_root d) t ->
  exists k, runs_to (fun fuel => dawg_hash fuel h d) k /\ k = murmur_key (thash t) (murmur_key (d_size d) DEADBEEF).
Proof.
  intros h d t U. eexists. split; [|reflexivity]. destruct (unf_read _ _ _ U) as (n & R & G & N).
  exists (height t). intros fuel Hf. unfold dawg_hash. rewrite R. cbn [rbind].
  rewrite (node_hash_ok fuel h n t N Hf). reflexivity.
Qed.

(** ** C85: what is saved before finish() is what can be found: the dictionary that
    is loaded has exactly these terms, although its size() counts all that were
    accepted. *)
Theorem C85_saved : forall alloc h0 history alloc' h1, allocator alloc -> allocator alloc' ->
  exists flags kept h b m h2 b2,
    greedy [] history flags kept /\
    runs_to (fun fuel => under_construction fuel alloc h0 history) (flags, h, b) /\
    runs_to (fun fuel => to_protobuf fuel h (b_dawg b)) m /\
    from_protobuf alloc' h1 m = Ok (h2, b2) /\
    (forall p, allocated h1 p -> hget h2 p = hget h1 p) /\
    d_size (b_dawg b2) = (N.of_nat (length kept) mod 2 ^ 64)%N /\
    (forall w, (N.of_nat (length w) <= INT_MAX)%N ->
       exists answer, contains h2 (b_dawg b2) w = Ok answer /\ (answer = true <-> findable kept w)) /\
    (forall alg x n, within_limits history x n ->
       exists answers, lists alg x n (findable kept) answers /\ yields as_candidate alg h2 (b_dawg b2) x n answers) /\
    (exists h3, runs_to (fun fuel => destroy fuel h2 b2) h3 /\ same_heap h3 h1).
Proof.
  intros alloc h0 history alloc' h1 A A'.
  destruct (unfinished_trie alloc h0 history A) as (flags & kept & h & b & shown & G & E & Sh & In1 & Sz & U & Fr).
  destruct (to_protobuf_all h _ _ U) as (m & R & De).
  destruct (restored_copy alloc' h _ _ m h1 A' U De) as (f & h2 & E2 & C).
  assert (U2 : unf h2 (f (d_root (b_dawg b))) (trie shown)) by (eapply copy_unf; eauto using reach_refl).
  exists flags, kept, h, b, m, h2. eexists. split; auto. split; auto. split; auto. split; [exact E2|]. cbn [b_dawg d_size].
  split. { intros p Al. apply (cp_rest _ _ _ _ _ C). intros q Rq ->. apply Al. apply (cp_fresh _ _ _ _ _ C); auto. }
  split; [exact Sz|]. split.
  { intros w L. exists (tin (trie shown) w). split; [apply contains_ok; auto|]. rewrite tin_trie. apply Sh. }
  split.
  { intros alg x n (Lx & Ln & Lt). exists (scored alg shown x n). split.
    - apply (graded_lists alg x n (trie shown)); [apply trie_sorted|]. intros w. rewrite tin_trie. apply Sh.
    - pose proof (query_all_unf _ as_candidate alg shown h2 (Dawg (f (d_root (b_dawg b))) (d_size (b_dawg b))) x n U2) as Y.
      rewrite render_candidate in Y. apply Y. split; auto. split; auto. intros t J. apply Lt. eapply greedy_incl; eauto. }
  eapply cleaned_destroy_ok; cbn; auto.
  + exact U2.
  + intros x Rx. apply (copy_reach _ _ _ _ _ _ C U) in Rx. destruct Rx as (p & Rp & ->). apply (cp_fresh _ _ _ _ _ C); auto.
  + intros x Nx. apply (cp_rest _ _ _ _ _ C). intros p Rp ->. apply Nx. apply (copy_reach _ _ _ _ _ _ C U). eauto.
Qed.
Print Assumptions C85_saved.

(** So the term accepted last is always missing from the file, unless it is empty,
    and with it all that begin with the same letter. *)
Theorem C85_last_lost : forall alloc h0 history alloc' h1 flags kept h b m h2 b2, allocator alloc -> allocator alloc' ->
  greedy [] history flags kept ->
  runs_to (fun fuel => under_construction fuel alloc h0 history) (flags, h, b) ->
  runs_to (fun fuel => to_protobuf fuel h (b_dawg b)) m -> from_protobuf alloc' h1 m = Ok (h2, b2) ->
  forall c w, In (c :: w) kept -> hd_error (last kept []) = Some c -> (N.of_nat (length (c :: w)) <= INT_MAX)%N ->
  contains h2 (b_dawg b2) (c :: w) = Ok false.
Proof.
  intros alloc h0 history alloc' h1 flags kept h b m h2 b2 A A' G E R F c w I H L.
  destruct (C85_saved alloc h0 history alloc' h1 A A') as (flags' & kept' & h' & b' & m' & h2' & b2' & G' & E' & R' & F' & _ & _ & Co & _).
  destruct (greedy_det _ _ _ _ G _ _ G') as [<- <-].
  pose proof (runs_to_det _ _ _ _ E E') as X. injection X as <- <-.
  rewrite (runs_to_det _ _ _ _ R R') in F. rewrite F' in F. injection F as <- <-.
  destruct (Co _ L) as (a & -> & Fa). destruct a; auto. exfalso. destruct (proj1 Fa eq_refl) as [_ X].
  destruct (last kept []); cbn in H; [discriminate|]. injection H as ->. apply X. auto.
Qed.
Print Assumptions C85_last_lost.

(** Two dictionaries, both under construction, are equal exactly if the same terms
    can be found in them and as many were accepted; then they have the same hash
    code. *)
Theorem C85_equality : forall alloc h0 history1 history2, allocator alloc ->
  exists flags1 kept1 h1 b1 flags2 kept2 h2 b2 answer,
    greedy [] history1 flags1 kept1 /\ greedy [] history2 flags2 kept2 /\
    runs_to (fun fuel => under_construction fuel alloc h0 history1) (flags1, h1, b1) /\
    runs_to (fun fuel => under_construction fuel alloc h1 history2) (flags2, h2, b2) /\
    runs_to (fun fuel => dawg_eq fuel h2 (b_dawg b1) (b_dawg b2)) answer /\
    (answer = true <-> (forall w, findable kept1 w <-> findable kept2 w) /\
       (N.of_nat (length kept1) mod 2 ^ 64 = N.of_nat (length kept2) mod 2 ^ 64)%N) /\
    exists code1 code2, runs_to (fun fuel => dawg_hash fuel h2 (b_dawg b1)) code1 /\
      runs_to (fun fuel => dawg_hash fuel h2 (b_dawg b2)) code2 /\ (answer = true -> code1 = code2).
Proof.
  intros alloc h0 history1 history2 A.
  destruct (unfinished_trie alloc h0 history1 A) as (flags1 & kept1 & h1 & b1 & shown1 & G1 & E1 & Sh1 & _ & Sz1 & U1 & _).
  destruct (unfinished_trie alloc h1 history2 A) as (flags2 & kept2 & h2 & b2 & shown2 & G2 & E2 & Sh2 & _ & Sz2 & U2 & Fr).
  assert (U1' : unf h2 (d_root (b_dawg b1)) (trie shown1)).
  { eapply unf_frame with (P := reach h1 (d_root (b_dawg b1))); eauto using reach_closed, reach_refl.
    intros q Rq. apply Fr. destruct (unf_reach_alloc _ _ _ _ U1 Rq) as (_ & n & G). unfold allocated. congruence. }
  destruct (dawg_eq_ok h2 (b_dawg b1) (b_dawg b2) _ _ U1' U2) as (a & Ra & Ia).
  exists flags1, kept1, h1, b1, flags2, kept2, h2, b2, a. do 5 (split; [auto|]). split.
  - rewrite Ia, Sz1, Sz2. change (2 ^ 64)%N with W. split; intros [X Y]; split; auto.
    + intros w. rewrite <- Sh1, <- Sh2, <- !tin_trie, Y. tauto.
    + apply trie_ext. intros w. rewrite Sh1, Sh2. auto.
  - destruct (dawg_hash_unf h2 (b_dawg b1) _ U1') as (k1 & R1 & K1). destruct (dawg_hash_unf h2 (b_dawg b2) _ U2) as (k2 & R2 & K2).
    exists k1, k2. split; auto. split; auto. intros Ea. apply Ia in Ea. destruct Ea as [Es Et]. rewrite K1, K2, Es, Et. reflexivity.
Qed.
Print Assumptions C85_equality.

(** So dictionaries with different terms can be equal until they are finished. *)
Theorem C85_equality_refuted : exists alloc terms1 terms2 h1 b1 h2 b2 h3 b3 h4 b4,
  allocator alloc /\ ascending terms1 /\ ascending terms2 /\ (exists w, In w terms1 /\ ~ In w terms2) /\
  runs_to (fun fuel => under_construction fuel alloc [] terms1) (map (fun _ => true) terms1, h1, b1) /\
  runs_to (fun fuel => under_construction fuel alloc h1 terms2) (map (fun _ => true) terms2, h2, b2) /\
  runs_to (fun fuel => dawg_eq fuel h2 (b_dawg b1) (b_dawg b2)) true /\
  runs_to (fun fuel => finish fuel h2 b1) (h3, b3) /\ runs_to (fun fuel => finish fuel h3 b2) (h4, b4) /\
  runs_to (fun fuel => dawg_eq fuel h4 (b_dawg b3) (b_dawg b4)) false.
Proof.
  exists bump, [sa; sab], [sa; (lit "ac")]. do 8 eexists. split; [apply bump_allocator|].
  split; [unfold ascending; ascending_tac|]. split; [unfold ascending; ascending_tac|].
  split; [exists sab; split; [right; left; auto|]; vm_compute; intuition discriminate|].
  do 5 (split; [exists 20; intros fuel H; do 20 (destruct fuel as [|fuel]; [lia|]); vm_compute; reflexivity|]).
  exists 20; intros fuel H; do 20 (destruct fuel as [|fuel]; [lia|]); vm_compute; reflexivity.
Qed.
Print Assumptions C85_equality_refuted.

(** ** Examples *)
(** "a", "ab" and "b" are added, and the dictionary is saved and loaded. *)
Example C85_case : exists h b m h2 b2,
  runs_to (fun fuel => under_construction fuel bump [] [sa; sab; sb]) ([true; true; true], h, b) /\
  runs_to (fun fuel => to_protobuf fuel h (b_dawg b)) m /\ from_protobuf lifo [] m = Ok (h2, b2) /\
  d_size (b_dawg b2) = 3%N /\ contains h2 (b_dawg b2) sab = Ok true /\ contains h2 (b_dawg b2) sb = Ok false /\
  runs_to (fun fuel => iterate fuel h2 (b_dawg b2)) [sa; sab; sab].
Proof.
  do 5 eexists. do 2 (split; [exists 20; intros fuel H; do 20 (destruct fuel as [|fuel]; [lia|]); vm_compute; reflexivity|]).
  split; [vm_compute; reflexivity|]. split; [reflexivity|]. split; [vm_compute; reflexivity|]. split; [vm_compute; reflexivity|].
  exists 20; intros fuel H; do 20 (destruct fuel as [|fuel]; [lia|]); vm_compute; reflexivity.
Qed.

Example C85_case_last : In sb [sa; sab; sb] /\ hd_error (last [sa; sab; sb] []) = Some "b"%char /\ greedy [] [sa; sab; sb] [true; true; true] [sa; sab; sb].
Proof.
  split; [right; right; left; auto|]. split; [reflexivity|].
  do 3 (constructor; [rewrite <- str_ltb_lex; vm_compute; discriminate|]). constructor.
Qed.
