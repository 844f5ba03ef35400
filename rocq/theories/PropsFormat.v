(** * Property C69: the format of dictionary files. *)
From Coq Require Import Sorting.Sorted Sorting.Permutation.
From Verif Require Import Base Spec ModelTransducer ModelDawg ModelSerial ModelWire ModelQuery SpecDawg SpecSerial SpecQuery SpecWire SpecFormat
  TreeProofs HeapProofs IterProofs BuildProofs2 DawgProofs SerialProofs QueryProofs QueryFacts WireProofs FileProofs FormatProofs
  PropsDawg PropsQuery PropsSerial PropsWire.
Local Open Scope nat_scope.

(** ** C69: dictionary files are exchanged with other programs. *)

(** What is written follows the published format: the numbers of the fields, their
    types and encoding, and the meaning of the message are what the schema says. *)
Theorem C69_writes : forall terms h d size split room old bytes,
  dictionary terms h d -> addresses_fit h -> splitter split -> (2 ^ 31 <= room)%N ->
  runs_to (fun fuel => serialize_file fuel size split true room old h d) (true, Some bytes) ->
  are_bytes bytes /\ exists m, encodes bytes m /\ well_formed m /\ NoDup (m_nodes m) /\
    m_size m = (N.of_nat (length terms) mod 2 ^ 64)%N /\
    forall w, In w terms <-> exists j, leads (m_edges m) (m_root m) w j /\ In j (m_finals m).
Proof.
  intros terms h d size split room old bytes D Af Sp Rm Rs. destruct (dictionary_unf _ _ _ D) as (U & As & S).
  destruct (to_protobuf_all h d _ U) as (m & R & De). destruct (dictionary_message _ _ _ _ D Af R) as (Ra & _ & Nd & _ & Wf).
  assert (Eb : not_too_long m /\ bytes = encode m).
  { destruct R as (e1 & R), Rs as (e2 & Rs). specialize (R (e1 + e2) ltac:(lia)). specialize (Rs (e1 + e2) ltac:(lia)).
    cbv beta in Rs. unfold serialize_file, serialize_stream in Rs. rewrite R in Rs. cbn [rbind] in Rs.
    unfold serialize_to in Rs. unfold not_too_long. destruct (N.leb_spec (N.of_nat (length (encode m))) INT_MAX) as [L|L]; [|discriminate].
    split; auto. pose proof (sound_all size room (split (encode m))) as So. rewrite Sp in So. rewrite (closed _ _ _ So) in Rs.
    injection Rs as _ <-. apply firstn_all2. change INT_MAX with 2147483647%N in L. change (2 ^ 31)%N with 2147483648%N in Rm. lia. }
  destruct Eb as (Lm & ->). split; [apply encode_bytes|]. exists m. split; [apply encode_encodes; auto|]. split; auto. split; auto.
  split; [rewrite (ds_size _ _ _ De); exact S|]. intros w.
  destruct (C27_well_formed SpecDawg.bump h m bump_allocator Wf) as (h2 & b & E & _ & _ & Ac). rewrite <- Ac.
  pose proof (dictionary_restored _ _ _ _ _ _ _ _ D R bump_allocator E) as D2. destruct (dictionary_unf _ _ _ D2) as (U2 & _ & _).
  rewrite (accepts_tin _ _ _ w U2). symmetry. apply tin_trie.
Qed.
Print Assumptions C69_writes.

(** A file that any program wrote following the format is read as what it means,
    whatever the order of the fields, however numbers are encoded, packed or not,
    with or without fields of later versions. *)
Theorem C69_reads : forall alloc h bytes m, allocator alloc -> are_bytes bytes -> (N.of_nat (length bytes) <= INT_MAX)%N ->
  encodes bytes m -> well_formed m ->
  exists h2 b, deserialize_file alloc h (Some bytes) = Ok (h2, Some b) /\
    d_size (b_dawg b) = m_size m /\
    (forall p, allocated h p -> hget h2 p = hget h p) /\
    forall w, (N.of_nat (length w) <= INT_MAX)%N -> exists found, contains h2 (b_dawg b) w = Ok found /\
      (found = true <-> exists j, leads (m_edges m) (m_root m) w j /\ In j (m_finals m)).
Proof.
  intros alloc h bytes m A B L En Wf. apply decode_iff in En; auto.
  destruct (from_protobuf_ok alloc h m A Wf) as (f & h2 & E & Lo). eexists h2, _.
  split; [unfold deserialize_file, parse_from; rewrite En; cbn [rbind deserialize]; rewrite E; reflexivity|].
  cbn [b_dawg d_size]. split; auto. split.
  - intros p Al. apply (lo_rest _ _ _ _ _ _ Lo). intros i I ->. apply Al. apply (lo_fresh _ _ _ _ _ _ Lo); auto.
  - intros w Lw. eapply laid_out_contains; eauto.
Qed.
Print Assumptions C69_reads.

(** A file that does not follow the format is refused, and nothing is allocated. *)
Theorem C69_refuses : forall alloc h bytes, are_bytes bytes -> (forall m, ~ encodes bytes m) ->
  deserialize_file alloc h (Some bytes) = Ok (h, None).
Proof.
  intros alloc h bytes B H. unfold deserialize_file, parse_from. destruct (decode_total bytes) as ([m|] & E); [|rewrite E; reflexivity].
  exfalso. apply (H m). unfold decode in E. destruct (N.leb_spec (N.of_nat (length bytes)) INT_MAX) as [L|L]; [|discriminate].
  apply decode_iff; auto. unfold decode. destruct (N.leb_spec (N.of_nat (length bytes)) INT_MAX); [exact E|lia].
Qed.
Print Assumptions C69_refuses.

(** Fields that a later version of the schema may have make no difference,
    wherever they are. *)
Theorem C69_later_versions : forall alloc h front unknown back m, are_bytes (front ++ unknown ++ back) ->
  (N.of_nat (length (front ++ unknown ++ back)) <= INT_MAX)%N ->
  encodes front m -> unknown_fields unknown ->
  deserialize_file alloc h (Some (front ++ unknown ++ back)) = deserialize_file alloc h (Some (front ++ back)).
Proof.
  intros alloc h a u b m B L H K. unfold deserialize_file. f_equal. unfold parse_from, decode.
  pose proof (unknown_neutral m K) as Hu. pose proof (fields_app H Hu) as Hau.
  assert (La : (N.of_nat (length (a ++ b)) <= INT_MAX)%N) by (rewrite !app_length in *; lia).
  destruct (N.leb_spec (N.of_nat (length (a ++ u ++ b))) INT_MAX); [|lia].
  destruct (N.leb_spec (N.of_nat (length (a ++ b))) INT_MAX); [|lia].
  assert (Bab : are_bytes (a ++ b)) by (rewrite !bytes_app in *; tauto).
  rewrite (fields_front H Bab) by lia. rewrite app_assoc in B |- *. rewrite (fields_front Hau B) by lia.
  apply bytes_app in B. apply fields_agree; [tauto|rewrite !app_length; lia..].
Qed.
Print Assumptions C69_later_versions.

(** A file written by another program for the dictionary with the term "a": the
    size first, a number with a superfluous byte, fields of a later version, among
    them a group in a group, repeated numbers one by one. *)
Definition foreign : message := Message [1; 2]%N [2]%N [EdgeMsg 1 97 2] 1 1.
Definition foreign_front : list N := [40; 1; 32; 129; 0]%N.
Definition foreign_unknown : list N := [50; 3; 9; 9; 9; 59; 8; 5; 75; 76; 60]%N.
Definition foreign_back : list N := [8; 1; 8; 2; 18; 1; 2; 26; 6; 8; 1; 16; 97; 24; 2]%N.

Ltac bytes := repeat (constructor; [reflexivity|]); constructor.

Example C69_case : are_bytes (foreign_front ++ foreign_unknown ++ foreign_back) /\
  encodes foreign_front (Message [] [] [] 1 1) /\ unknown_fields foreign_unknown /\
  encodes (foreign_front ++ foreign_unknown ++ foreign_back) foreign /\ well_formed foreign /\
  leads (m_edges foreign) (m_root foreign) (lit "a") 2 /\
  (forall m, ~ encodes [18; 5; 1]%N m).
Proof.
  assert (B : are_bytes (foreign_front ++ foreign_unknown ++ foreign_back)) by (unfold foreign_front; bytes).
  assert (Bf : are_bytes foreign_front) by (unfold foreign_front; bytes).
  split; auto. split; [apply decode_iff; [auto|vm_compute; discriminate|reflexivity]|]. split; [|split; [|split; [|split]]].
  - assert (K : forall k t b, (b < 128)%N -> (b = 8 * k + t)%N -> (t < 8)%N -> k <> 0%N -> key k t [b]).
    { intros k t b Lb E Lt Nk. exists b. split; [constructor; auto|]. split; [cbn; lia|]. split; [|auto].
      rewrite N.mod_small; [auto|]. transitivity 128%N; [auto|reflexivity]. }
    change foreign_unknown with ([50] ++ [3; 9; 9; 9] ++ ([59] ++ (([8] ++ [5] ++ ([75] ++ ([] ++ [76]) ++ [])) ++ [60]) ++ []))%N.
    apply (fields_cons _ 6%N 2%N _ _ _ tt tt tt); [apply K; vm_compute; congruence| |].
    + split; [|cbn; intuition discriminate]. apply (any_delimited _ _ _ [9; 9; 9]%N). exists [3%N]. split; [apply (base128_last 3); reflexivity|].
      split; [cbn; lia|reflexivity].
    + apply (fields_cons _ 7%N 3%N _ _ _ tt tt tt); [apply K; vm_compute; congruence| |constructor].
      split; [|cbn; intuition discriminate]. apply any_group; [|apply K; vm_compute; congruence].
      apply (any_cons _ 1%N 0%N); [apply K; vm_compute; congruence| |].
      * apply (any_number _ _ _ 5%N). exists 5%N. split; [constructor; reflexivity|]. split; [cbn; lia|reflexivity].
      * apply (any_cons _ 9%N 3%N); [apply K; vm_compute; congruence| |constructor].
        apply any_group; [constructor|apply K; vm_compute; congruence].
  - apply decode_iff; [auto|vm_compute; discriminate|reflexivity].
  - constructor; cbn; auto.
    + intros e [<-|[]]. cbn. auto.
    + intros e [<-|[]]. cbn. auto.
    + constructor; auto. constructor.
  - change (m_root foreign) with (em_source (EdgeMsg 1 97 2)). change (lit "a") with [label_of_msg (em_label (EdgeMsg 1 97 2))].
    constructor; [left; auto|constructor].
  - intros m H. apply decode_iff in H; [vm_compute in H; discriminate|bytes|vm_compute; discriminate].
Qed.

Example C69_case_written : exists bytes, dictionary some_terms example_heap example_dawg /\ addresses_fit example_heap /\ splitter in_threes /\
  runs_to (fun fuel => serialize_file fuel 8 in_threes true (2 ^ 31) None example_heap example_dawg) (true, Some bytes).
Proof.
  destruct C54_case as (A & L & Sp & _). destruct (C54_file some_terms example_heap example_dawg example_message 8 in_threes (2 ^ 31) None
    SpecDawg.bump [] example_dictionary A) as (bytes & R & _).
  - exists 10. intros fuel Hf. do 10 (destruct fuel as [|fuel]; [lia|]). reflexivity.
  - exact L.
  - exact Sp.
  - vm_compute. discriminate.
  - apply bump_allocator.
  - exists bytes. split; [exact example_dictionary|]. auto.
Qed.
