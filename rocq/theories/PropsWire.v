(** * Properties C54-C56: dictionaries as bytes and files. *)
From Coq Require Import Sorting.Sorted Sorting.Permutation.
From Verif Require Import Base Spec ModelTransducer ModelDawg ModelSerial ModelWire ModelQuery SpecDawg SpecSerial SpecQuery SpecWire
  TreeProofs HeapProofs IterProofs BuildProofs2 DawgProofs SerialProofs QueryProofs QueryFacts LimitProofs WireProofs FileProofs
  PropsDawg PropsQuery PropsSerial.
Local Open Scope nat_scope.

(** The message of a dictionary can be written. *)
Lemma dictionary_message terms h d m : dictionary terms h d -> addresses_fit h ->
  runs_to (fun fuel => to_protobuf fuel h d) m ->
  in_range m /\ m_root m <> 0%N /\ NoDup (m_nodes m) /\ ~ In 0%N (m_nodes m) /\ well_formed m.
Proof.
  intros D A R. destruct (dictionary_unf _ _ _ D) as (U & _ & S). pose proof (written h d m _ U R) as De.
  assert (Al : forall x, reach h (d_root d) x -> x <> 0%N /\ (x < 2 ^ 64)%N).
  { intros x Rx. destruct (unf_reach_alloc _ _ _ _ U Rx) as (Nx & n & G). split; auto. apply A. unfold allocated. congruence. }
  assert (Rr : reach h (d_root d) (d_root d)) by apply reach_refl.
  split; [|split; [|split; [|split]]].
  - constructor.
    + intros i I. apply Al, (ds_nodes _ _ _ De), I.
    + intros i I. apply Al. apply (ds_finals _ _ _ De) in I. apply I.
    + intros e I. apply (ds_edges _ _ _ De) in I. destruct I as (x & c & q & -> & Rx & n & G & I). cbn.
      split; [apply Al; auto|]. split; [apply C26_labels|]. apply Al. eapply reach_step; eauto.
    + rewrite (ds_root _ _ _ De). apply Al; auto.
    + rewrite (ds_size _ _ _ De), S. apply N.mod_lt. discriminate.
  - rewrite (ds_root _ _ _ De). apply Al; auto.
  - apply De.
  - intros I. apply (ds_nodes _ _ _ De) in I. apply Al in I. tauto.
  - eapply describes_well_formed; eauto.
Qed.

(** ** C54: through bytes and files. *)

(** Every message that protobuf accepts is read back as it was. *)
Theorem C54_message : forall m, in_range m -> not_too_long m -> decode (encode m) = Ok (Some m).
Proof. exact decode_encode. Qed.
Print Assumptions C54_message.

(** A dictionary written to a file with enough room is read back with the same
    terms, by this or another process. *)
Theorem C54_file : forall terms h d m size split room old alloc h1,
  dictionary terms h d -> addresses_fit h -> runs_to (fun fuel => to_protobuf fuel h d) m -> not_too_long m ->
  splitter split -> (N.of_nat (length (encode m)) <= room)%N -> allocator alloc ->
  exists bytes, runs_to (fun fuel => serialize_file fuel size split true room old h d) (true, Some bytes) /\
    exists h2 b, deserialize_file alloc h1 (Some bytes) = Ok (h2, Some b) /\
      dictionary terms h2 (b_dawg b) /\ d_size (b_dawg b) = d_size d /\
      (forall w, contains h2 (b_dawg b) w = contains h d w) /\
      (forall p, allocated h1 p -> hget h2 p = hget h1 p).
Proof.
  intros terms h d m size split room old alloc h1 D Af R Lm Sp Rm A.
  destruct (dictionary_message _ _ _ _ D Af R) as (Ra & _ & _ & _ & Wf).
  exists (encode m). pose proof (sound_all size room (split (encode m))) as So. rewrite Sp in So. split.
  - destruct R as (enough & R). exists enough. intros fuel Hf. unfold serialize_file, serialize_stream. rewrite (R fuel Hf). cbn [rbind].
    unfold serialize_to. destruct (N.leb_spec (N.of_nat (length (encode m))) INT_MAX); [|unfold not_too_long in Lm; lia].
    rewrite (enough_room _ _ _ So Rm). rewrite (closed _ _ _ So). rewrite firstn_all2 by lia. auto.
  - destruct (from_protobuf_ok alloc h1 m A Wf) as (f & h2 & E & L). eexists h2, _.
    split; [unfold deserialize_file, parse_from; rewrite (decode_encode _ Ra Lm); cbn [rbind deserialize]; rewrite E; reflexivity|].
    pose proof (dictionary_restored _ _ _ _ _ _ _ _ D R A E) as D2. split; [exact D2|].
    destruct (dictionary_unf _ _ _ D) as (U & As & S). destruct (dictionary_unf _ _ _ D2) as (U2 & _ & S2). cbn [b_dawg] in *.
    split; [congruence|]. split.
    + intros w. rewrite (contains_look _ _ _ w U). rewrite (contains_look _ (Dawg _ _) _ w U2). auto.
    + intros p Al. apply (lo_rest _ _ _ _ _ _ L). intros i I ->. apply Al. apply (lo_fresh _ _ _ _ _ _ L); auto.
Qed.
Print Assumptions C54_file.

Definition in_threes (bs : list N) : list (list N) := [firstn 3 bs; skipn 3 bs].

Example C54_case : addresses_fit example_heap /\ not_too_long example_message /\ splitter in_threes /\
  length (encode example_message) = 63 /\
  exists bytes, serialize_file 10 8 in_threes true 100 None example_heap example_dawg = Ok (true, Some bytes) /\
    decode bytes = Ok (Some example_message).
Proof.
  split.
  { intros p Al. assert (In p (map fst example_heap)).
    { revert Al. unfold allocated. generalize example_heap. induction h as [|[q n] h IH]; cbn; [intros X; destruct X; auto|].
      change (hget ((q, n) :: h) p) with (if (p =? q)%N then n else hget h p). destruct (N.eqb_spec p q); auto. }
    assert (F : forallb (fun p => p <? 2 ^ 64)%N (map fst example_heap) = true) by (vm_compute; reflexivity).
    rewrite forallb_forall in F. apply N.ltb_lt, F, H. }
  split; [vm_compute; discriminate|].
  split. { intros bs. unfold in_threes. cbn [concat]. rewrite app_nil_r. apply firstn_skipn. }
  run. eexists. run. vm_compute. reflexivity.
Qed.

(** ** C55: unreadable and incomplete files. *)

(** Reading ends for every input; input that is not a message, and a file that
    cannot be opened, give nullptr and change nothing. *)
Theorem C55_unreadable : forall alloc h input,
  (exists parsed, parse_from input = Ok parsed) /\
  (parse_from input = Ok None -> deserialize_file alloc h input = Ok (h, None)) /\
  parse_from None = Ok None.
Proof.
  intros alloc h input. split; [|split; auto].
  - destruct input as [bs|]; [apply decode_total|]. exists None. auto.
  - intros E. unfold deserialize_file. rewrite E. auto.
Qed.
Print Assumptions C55_unreadable.

Example C55_case_unreadable : parse_from (Some [10; 3; 7]%N) = Ok None /\ parse_from (Some [255]%N) = Ok None.
Proof. split; vm_compute; reflexivity. Qed.

(** If the end of the file is missing, the result is nullptr, or a dictionary
    without a root, which contains nothing and cannot be iterated, searched or
    destroyed (its nodes are leaked), or the right dictionary with size 0. *)
Theorem C55_cut_short : forall terms h d m bytes alloc h1,
  dictionary terms h d -> addresses_fit h -> runs_to (fun fuel => to_protobuf fuel h d) m -> not_too_long m ->
  allocator alloc -> cut_short bytes (encode m) ->
  deserialize_file alloc h1 (Some bytes) = Ok (h1, None) \/
  (exists h2 b, deserialize_file alloc h1 (Some bytes) = Ok (h2, Some b) /\
    (forall w, contains h2 (b_dawg b) w = Ok false) /\ d_size (b_dawg b) = 0%N /\
    runs_into_ub (fun fuel => dawg_begin fuel h2 (b_dawg b)) /\
    runs_into_ub (fun fuel => destroy fuel h2 b) /\
    (exists leaked, NoDup leaked /\ (forall p, In p leaked -> ~ allocated h1 p /\ allocated h2 p) /\
      (forall p, ~ In p leaked -> hget h2 p = hget h1 p) /\ (bytes <> [] -> length leaked = length (m_nodes m)))) \/
  (exists h2 b, deserialize_file alloc h1 (Some bytes) = Ok (h2, Some b) /\ terms <> [] /\
    (forall w, contains h2 (b_dawg b) w = contains h d w) /\
    (forall R (rt : result_type R) alg q n results, within_limits terms q n ->
       (yields rt alg h2 (b_dawg b) q n results <-> yields rt alg h d q n results)) /\
    d_size (b_dawg b) = 0%N /\ runs_to (fun fuel => iterate fuel h2 (b_dawg b)) [] /\
    (exists h3, runs_to (fun fuel => destroy fuel h2 b) h3 /\ same_heap h3 h1)).
Proof.
  intros terms h d m bytes alloc h1 D Af R Lm A Cs.
  destruct (dictionary_message _ _ _ _ D Af R) as (Ra & Nr & ND & NZ & Wf).
  unfold deserialize_file, parse_from.
  destruct (decode_cut m bytes Ra Lm Nr Cs) as [->|[(m' & -> & Bg & Nn)|(Ns & ->)]]; cbn [rbind deserialize].
  - left. auto.
  - right. left. destruct (from_beginning alloc h1 m m' A Wf ND NZ Bg) as (h2 & -> & made & NDm & Lm' & Fr & Rs). cbn [rbind].
    eexists _, _. split; [reflexivity|]. cbn [b_dawg d_size].
    split; [intros [|c w]; reflexivity|]. split; auto.
    split; [exists 1; intros [|fuel] H; [lia|reflexivity]|].
    split; [exists 1; intros [|fuel] H; [lia|reflexivity]|].
    exists made. split; auto. split; auto. split; auto. intros Ne. rewrite Lm', (Nn Ne). auto.
  - right. right. destruct (dictionary_unf _ _ _ D) as (U & As & S). pose proof (written h d m _ U R) as De.
    destruct (restored_copy alloc h d _ m h1 A U De) as (f & h2 & E & C).
    pose proof (dictionary_restored _ _ _ _ _ _ _ _ D R A E) as D2. cbn [b_dawg] in D2.
    destruct (dictionary_unf _ _ _ D2) as (U2 & _ & S2). cbn [d_root d_size] in *.
    exists h2, (Builder (Dawg (f (d_root d)) 0) [] None). split.
    { revert E. unfold from_protobuf, set_size. cbn [m_nodes m_finals m_edges m_root m_size].
      destruct (make_nodes alloc h1 (m_finals m) (m_nodes m) []) as [h0 nodes]. destruct (link_edges h0 nodes (m_edges m)); cbn; try discriminate.
      intros X. injection X as -> -> _. auto. }
    cbn [b_dawg d_root d_size]. split; [|split; [|split; [|split; [auto|split]]]].
    + intros ->. apply Ns. rewrite (ds_size _ _ _ De), S. reflexivity.
    + intros w. rewrite (contains_look _ _ _ w U). rewrite (contains_look h2 (Dawg _ 0) _ w U2). auto.
    + intros Rt rt alg q n results L.
      change (yields rt alg h2 (Dawg (f (d_root d)) 0) q n results) with (yields rt alg h2 (Dawg (f (d_root d)) (d_size d)) q n results).
      split; intros Y.
      * rewrite (yields_det _ _ _ _ _ _ _ _ _ Y (query_all_main _ rt alg terms _ _ q n D2 L)).
        apply (query_all_main _ rt alg terms); auto.
      * rewrite (yields_det _ _ _ _ _ _ _ _ _ Y (query_all_main _ rt alg terms _ _ q n D L)).
        apply (query_all_main _ rt alg terms); auto.
    + exists (tsize (trie terms) + 2). intros fuel Hf.
      rewrite (iterate_ok fuel h2 (Dawg (f (d_root d)) 0) _ 0 U2); auto; try lia. reflexivity.
    + eapply cleaned_destroy_ok; cbn; auto.
      * exact U2.
      * intros x Rx. apply (copy_reach _ _ _ _ _ _ C U) in Rx. destruct Rx as (p & Rp & ->). apply (cp_fresh _ _ _ _ _ C); auto.
      * intros x Nx. apply (cp_rest _ _ _ _ _ C). intros p Rp ->. apply Nx. apply (copy_reach _ _ _ _ _ _ C U). eauto.
Qed.
Print Assumptions C55_cut_short.

(** All three happen. *)
Example C55_case_cut : let at_length k := deserialize_file bump [] (Some (firstn k (encode example_message))) in
  at_length 62 = Ok ([], None) /\
  (exists h, at_length 59 = Ok (h, Some (Builder (Dawg null 0) [] None)) /\ length (live h) = 5) /\
  exists h b, at_length 61 = Ok (h, Some b) /\ contains h (b_dawg b) scab = Ok true /\ d_size (b_dawg b) = 0%N /\
    iterate 20 h (b_dawg b) = Ok [].
Proof. cbv zeta. run. split; [eexists; run; vm_compute; reflexivity|]. eexists _, _. run. run. run. vm_compute. reflexivity. Qed.

(** Whenever the process dies while serializing, the file contains the
    beginning of the complete file. *)
Theorem C55_crash_point : forall m size split room contents, splitter split ->
  found_after_crash size room (split (encode m)) contents -> contents = encode m \/ cut_short contents (encode m).
Proof.
  intros m size split room contents Sp F. apply crash_prefix in F. destruct F as (back & E). rewrite Sp in E.
  destruct back as [|b back]; [left|right].
  - rewrite app_nil_r in E. auto.
  - exists (b :: back). split; [discriminate|auto].
Qed.
Print Assumptions C55_crash_point.

Example C55_case_crash : found_after_crash 8 100 (in_threes (encode example_message)) (firstn 40 (encode example_message)).
Proof.
  eexists 1, _, _, (firstn 40 (encode example_message)), (skipn 40 (encode example_message)).
  split; [reflexivity|]. split; [left; reflexivity|]. split; vm_compute; reflexivity.
Qed.

(** ** C56: what the result of serialize_protobuf says. *)

(** The file holds as much of the message as fits.  The result false is right:
    something is missing.  The result true is right if nothing is missing, but it
    is also returned when the disk is full and the missing part did not leave the
    stream's buffer before close(). *)
Theorem C56_result : forall terms h d m size split room old,
  dictionary terms h d -> runs_to (fun fuel => to_protobuf fuel h d) m -> splitter split ->
  runs_to (fun fuel => serialize_file fuel size split false room old h d) (false, old) /\
  (~ not_too_long m -> runs_to (fun fuel => serialize_file fuel size split true room old h d) (false, Some [])) /\
  (not_too_long m -> exists result,
    runs_to (fun fuel => serialize_file fuel size split true room old h d) (result, Some (firstn (N.to_nat room) (encode m))) /\
    (result = false -> cut_short (firstn (N.to_nat room) (encode m)) (encode m)) /\
    ((N.of_nat (length (encode m)) <= room)%N -> result = true) /\
    ((N.of_nat (length (encode m)) <= size)%N -> result = true)).
Proof.
  intros terms h d m size split room old D (enough & R) Sp. split; [|split].
  - exists enough. intros fuel Hf. unfold serialize_file, serialize_stream. rewrite (R fuel Hf). cbn [rbind]. unfold serialize_to.
    destruct (N.of_nat (length (encode m)) <=? INT_MAX)%N; auto.
    assert (G : forall ps f, good f = false -> good (fold_left (write size) ps f) = false).
    { induction ps as [|p ps IH]; intros f G; cbn; auto. apply IH. unfold write. rewrite G. auto. }
    rewrite G; auto.
  - intros Lm. exists enough. intros fuel Hf. unfold serialize_file, serialize_stream. rewrite (R fuel Hf). cbn [rbind]. unfold serialize_to.
    destruct (N.leb_spec (N.of_nat (length (encode m))) INT_MAX); [unfold not_too_long in Lm; lia|].
    cbn. rewrite firstn_nil. auto.
  - intros Lm. pose proof (sound_all size room (split (encode m))) as So. rewrite Sp in So.
    eexists. split; [|split; [|split]].
    + exists enough. intros fuel Hf. unfold serialize_file, serialize_stream. rewrite (R fuel Hf). cbn [rbind]. unfold serialize_to.
      destruct (N.leb_spec (N.of_nat (length (encode m))) INT_MAX); [|unfold not_too_long in Lm; lia].
      rewrite (closed _ _ _ So). reflexivity.
    + intros G. destruct (so_bad _ _ _ So G) as (_ & _ & L & _). exists (skipn (N.to_nat room) (encode m)).
      split; [|symmetry; apply firstn_skipn]. intros X. apply (f_equal (@length _)) in X. rewrite skipn_length in X. cbn in X. lia.
    + apply (enough_room _ _ _ So).
    + intros L. apply all_buffered; auto. rewrite Sp. cbn. exact L.
Qed.
Print Assumptions C56_result.

(** So true does not mean that the dictionary was saved: on a full disk, with a
    buffer of 8191 bytes, serialization succeeds and leaves an empty file, which
    reads as a dictionary that cannot even be destroyed. *)
Theorem C56_saved_refuted : exists terms h d split old, dictionary terms h d /\ splitter split /\
  runs_to (fun fuel => serialize_file fuel 8191 split true 0 old h d) (true, Some []) /\
  forall alloc h1, exists b, deserialize_file alloc h1 (Some []) = Ok (h1, Some b) /\
    (forall w, contains h1 (b_dawg b) w = Ok false) /\ runs_into_ub (fun fuel => destroy fuel h1 b).
Proof.
  exists some_terms, example_heap, example_dawg, in_threes, None. split; [exact example_dictionary|].
  assert (Sp : splitter in_threes) by apply C54_case. split; [exact Sp|]. split.
  - destruct (dictionary_unf _ _ _ example_dictionary) as (U & _). destruct (to_protobuf_all _ _ _ U) as (m & R & _).
    assert (Em : m = example_message).
    { destruct R as (enough & R). specialize (R (enough + 10) ltac:(lia)).
      assert (E : to_protobuf 10 example_heap example_dawg = Ok example_message) by (vm_compute; reflexivity).
      rewrite (to_protobuf_mono 10 (enough + 10) _ _ _ ltac:(lia) E) in R. congruence. }
    subst m. destruct (C56_result _ _ _ _ 8191 in_threes 0 None example_dictionary R Sp) as (_ & _ & H).
    destruct H as (r & Rr & _ & _ & Tr); [vm_compute; discriminate|]. rewrite Tr in Rr by (vm_compute; discriminate). exact Rr.
  - intros alloc h1. eexists. split; [reflexivity|]. split; [intros [|c w]; reflexivity|].
    exists 1. intros [|fuel] H; [lia|reflexivity].
Qed.
Print Assumptions C56_saved_refuted.

Example C56_case : serialize_file 10 8 in_threes true 10 None example_heap example_dawg =
    Ok (false, Some (firstn 10 (encode example_message))) /\
  serialize_file 10 8191 in_threes true 10 None example_heap example_dawg =
    Ok (true, Some (firstn 10 (encode example_message))).
Proof. split; vm_compute; reflexivity. Qed.
