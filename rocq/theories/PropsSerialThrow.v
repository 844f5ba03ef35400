(** * Property C82: saving and loading dictionaries when memory runs out. *)
From Verif Require Import Base Spec ModelTransducer ModelDawg ModelSerial ModelWire ModelThrow ModelBuildThrow ModelSerialThrow.
From Verif Require Import SpecDawg SpecSerial SpecQuery SpecWire TreeProofs HeapProofs DawgProofs SerialProofs QueryProofs QueryFacts
  WireProofs FileProofs BuildThrowProofs SerialThrowProofs PropsDawg PropsQuery PropsSerial PropsWire.
Local Open Scope nat_scope.

(** ** C82: loading

    Reading a message that makes sense needs one allocation for every final node,
    two for every node, one for every edge and one for the dictionary.  If one of
    them fails there is an exception: everything that was allocated before is as
    it was, and the nodes made so far, whose number is given, are lost. *)
Theorem C82_load : forall alloc h m ids, allocator alloc -> well_formed m ->
  NoDup ids -> (forall i, In i ids <-> In i (m_nodes m)) ->
  exists h1 bd needed, needed = length (m_finals m) + 2 * length ids + length (m_edges m) + 1 /\
  from_protobuf alloc h m = Ok (h1, bd) /\
  try_from_protobuf alloc None h m = Ok (None, h1, Some bd) /\
  forall k,
    (needed <= k -> try_from_protobuf alloc (Some k) h m = Ok (Some (k - needed), h1, Some bd)) /\
    (k < needed -> exists h2 lost, try_from_protobuf alloc (Some k) h m = Ok (Some 0, h2, None) /\
       NoDup lost /\ length lost = Nat.min (length ids) ((k - length (m_finals m) + 1) / 2) /\
       (forall p, In p lost -> ~ allocated h p /\ allocated h2 p) /\
       (forall p, ~ In p lost -> hget h2 p = hget h p)).
Proof.
  intros alloc h m ids A Wf ND I. destruct (from_protobuf_charge alloc h m ids A Wf ND I) as (h1 & bd & E & Su & Th).
  exists h1, bd, (length (m_finals m) + 2 * length ids + length (m_edges m) + 1). split; [reflexivity|]. split; [exact E|].
  split; [apply Su; apply BuildThrowProofs.many_none|]. intros k. split.
  - intros L. apply Su. rewrite spend_many_finite. destruct (Nat.leb_spec (length (m_finals m) + 2 * length ids + length (m_edges m) + 1) k); [reflexivity|lia].
  - intros L. destruct (Th k L) as (h2 & new & E2 & (N & In_ & Out) & Ln). exists h2, new. split; [exact E2|]. split; [exact N|].
    split; [exact Ln|]. split; [|exact Out]. intros p X. destruct (In_ p X) as (G1 & G2). unfold allocated.
    split; [intros Y; congruence|exact G2].
Qed.
Print Assumptions C82_load.

(** "If loading throws, nothing is left behind" is false as soon as the first
    node has been allocated. *)
Theorem C82_load_refuted : forall alloc h m k, allocator alloc -> well_formed m -> length (m_finals m) < k ->
  forall left h2, try_from_protobuf alloc (Some k) h m = Ok (left, h2, None) ->
  exists p, ~ allocated h p /\ allocated h2 p.
Proof.
  intros alloc h m k A Wf L left h2 E.
  destruct (C82_load alloc h m (nodup N.eq_dec (m_nodes m)) A Wf (NoDup_nodup _ _) (fun i => nodup_In _ _ _))
    as (h1 & bd & needed & En & _ & _ & K). destruct (K k) as [K1 K2].
  destruct (Nat.le_gt_cases needed k) as [G|G]; [rewrite (K1 G) in E; discriminate|].
  destruct (K2 G) as (h2' & lost & E' & N & Ln & In_ & _). rewrite E' in E. injection E as _ <-.
  assert (P : 1 <= length (nodup N.eq_dec (m_nodes m))).
  { pose proof (wf_root _ Wf) as R. apply (nodup_In N.eq_dec) in R. destruct (nodup N.eq_dec (m_nodes m)); [destruct R|cbn; lia]. }
  assert (Q : 1 <= (k - length (m_finals m) + 1) / 2) by (apply Nat.div_le_lower_bound; lia).
  destruct lost as [|p lost]; [cbn [length] in Ln; lia|]. exists p. apply In_. now left.
Qed.
Print Assumptions C82_load_refuted.

(** ** C82: saving

    There is a number of allocations from which on saving is as without limits.
    With fewer there is an exception; the dictionary is not changed (nothing is
    written to its nodes), the message object is lost unless it could not even be
    allocated, and the file, if it could be opened, is empty, whatever was in it. *)
Theorem C82_save : forall terms h d, dictionary terms h d -> exists needed, 1 <= needed /\
  forall size split opens room old, exists ok contents,
    runs_to (fun fuel => serialize_file fuel size split opens room old h d) (ok, contents) /\
    runs_to (fun fuel => try_serialize_file fuel None size split opens room old h d) (Saved ok, contents) /\
    forall k,
      (needed <= k ->
        runs_to (fun fuel => try_serialize_file fuel (Some k) size split opens room old h d) (Saved ok, contents)) /\
      (k < needed ->
        runs_to (fun fuel => try_serialize_file fuel (Some k) size split opens room old h d)
          (Interrupted (1 <=? k), if opens then Some [] else old)).
Proof.
  intros terms h d D. destruct (dictionary_unf _ _ _ D) as (U & _ & _).
  destruct (to_protobuf_all h d _ U) as (m & (f & R) & _).
  destruct (to_protobuf_charge f h d m (R f (le_n _))) as (n & C).
  exists (S n). split; [lia|]. intros size split opens room old.
  set (r := serialize_to size split (OFile opens [] [] room) m).
  exists (fst r), (if opens then Some (ModelWire.written (flush (snd r) [])) else old). split; [|split].
  - exists f. intros fuel Hf. unfold serialize_file, serialize_stream. rewrite (R fuel Hf). cbn [rbind]. fold r.
    unfold r. destruct opens; destruct (serialize_to _ _ _ _); reflexivity.
  - exists f. intros fuel Hf. unfold try_serialize_file. rewrite C, BuildThrowProofs.many_none by exact Hf. cbn [rbind]. fold r.
    destruct r; reflexivity.
  - intros k. split; intros L; exists f; intros fuel Hf; unfold try_serialize_file; rewrite C, spend_many_finite by exact Hf.
    + destruct (Nat.leb_spec (S n) k); [|lia]. cbn [rbind]. fold r. destruct r; reflexivity.
    + destruct (Nat.leb_spec (S n) k); [lia|]. cbn [rbind]. destruct k; reflexivity.
Qed.
Print Assumptions C82_save.

(** "If saving throws, the old file is still there" is false: for every
    dictionary and every file that can be opened there is a number of allocations
    after which the file is empty, and an empty file is read as a dictionary that
    contains nothing and cannot be destroyed (C55). *)
Theorem C82_overwrite_refuted : forall terms h d size split room old, dictionary terms h d -> exists k,
  runs_to (fun fuel => try_serialize_file fuel (Some k) size split true room old h d) (Interrupted true, Some []) /\
  forall alloc h1, exists b, deserialize_file alloc h1 (Some []) = Ok (h1, Some b) /\
    (forall w, contains h1 (b_dawg b) w = Ok false) /\ runs_into_ub (fun fuel => destroy fuel h1 b).
Proof.
  intros terms h d size split room old D. exists 1. split.
  - destruct (dictionary_unf _ _ _ D) as (U & _ & _).
    destruct (to_protobuf_all h d _ U) as (m & (f & R) & _). exists (S f). intros fuel Hf.
    unfold try_serialize_file, try_to_protobuf. cbn [spend]. destruct fuel as [|fuel]; [lia|]. reflexivity.
  - intros alloc h1. destruct (C27_empty alloc h1) as (b & E & Co & _ & _ & De). exists b. split; [|auto].
    change (deserialize_file alloc h1 (Some [])) with (do (h2, b2) <- from_protobuf alloc h1 empty_message; Ok (h2, Some b2)).
    rewrite E. reflexivity.
Qed.
Print Assumptions C82_overwrite_refuted.

(** The dictionary of PropsQuery is saved with 39 allocations and not with 38. *)
Example C82_case : dictionary some_terms example_heap example_dawg /\
  runs_to (fun fuel => try_serialize_file fuel (Some 39) 8 in_threes true 4096 (Some [7]%N) example_heap example_dawg)
    (Saved true, Some (encode example_message)) /\
  runs_to (fun fuel => try_serialize_file fuel (Some 38) 8 in_threes true 4096 (Some [7]%N) example_heap example_dawg)
    (Interrupted true, Some []) /\
  runs_to (fun fuel => try_serialize_file fuel (Some 0) 8 in_threes false 4096 (Some [7]%N) example_heap example_dawg)
    (Interrupted false, Some [7]%N).
Proof.
  split; [exact example_dictionary|].
  split; [|split]; exists 20; intros fuel H; do 20 (destruct fuel as [|fuel]; [lia|]); vm_compute; reflexivity.
Qed.

(** Its message is loaded with 19 allocations; with 10, four nodes are lost. *)
Example C82_case_load : well_formed example_message /\
  (exists h b, try_from_protobuf bump (Some 19) [] example_message = Ok (Some 0, h, Some b) /\ contains h (b_dawg b) scab = Ok true) /\
  (exists h, try_from_protobuf bump (Some 18) [] example_message = Ok (Some 0, h, None) /\ length (live h) = 5) /\
  (exists h, try_from_protobuf bump (Some 10) [] example_message = Ok (Some 0, h, None) /\ length (live h) = 4) /\
  try_from_protobuf bump (Some 2) [] example_message = Ok (Some 0, [], None).
Proof. split; [exact C27_case|]. split; [eexists _, _; run; vm_compute; reflexivity|]. split; [eexists; run; reflexivity|].
  split; [eexists; run; reflexivity|]. vm_compute. reflexivity. Qed.
