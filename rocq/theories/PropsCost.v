(** * Properties C66, C67: what destroying and hashing a dictionary costs. *)
From Coq Require Import Sorting.Sorted Sorting.Permutation.
From Verif Require Import Base Spec ModelHash ModelDawg ModelSerial ModelWire SpecDawg SpecQuery SpecSerial SpecWire SpecCost
  TreeProofs HeapProofs DawgProofs BuildProofs2 SerialProofs QueryFacts PropsDawg PropsQuery DestroyProofs.
Local Open Scope nat_scope.

(** ** C66: destroying a dictionary visits every prefix of its terms.
    [fuel] counts how often the condition of the loop of Dawg::all_nodes
    (dawg.cpp:32) is evaluated.  The last time it finds the queue empty; so there
    are exactly as many iterations as prefixes, however few nodes the automaton
    has. *)
Theorem C66_destruction : forall terms h d prefixes,
  dictionary terms h d -> lists_prefixes terms prefixes ->
  forall fuel, destroy_dawg fuel h d = OOF <-> fuel <= length prefixes.
Proof.
  intros terms h d ps D [ND I] fuel. destruct (dictionary_unf _ _ _ D) as (U & _).
  destruct (prefixes_listed terms) as (qs & [ND' I'] & L).
  assert (length ps = tsize (trie terms)) as ->.
  { rewrite <- L. apply Permutation_length, NoDup_Permutation; auto. intros w. rewrite I, I'. reflexivity. }
  apply destroy_dawg_fuel; auto.
Qed.
Print Assumptions C66_destruction.

(** "a", "ab", "cab", "cb": seven prefixes. *)
Example C66_case : lists_prefixes [lit "a"; lit "ab"; lit "cab"; lit "cb"]
    [[]; lit "a"; lit "c"; lit "ab"; lit "ca"; lit "cb"; lit "cab"] /\
  destroy_dawg 7 example_heap example_dawg = OOF /\ exists h, destroy_dawg 8 example_heap example_dawg = Ok h.
Proof.
  split; [split|].
  - repeat constructor; cbn; intuition discriminate.
  - intros w. split.
    + intros I. cbn in I. destruct I as [<-|I]; [auto|]. right.
      repeat (destruct I as [<-|I]; [first [exists []; cbn; tauto | exists (lit "b"); cbn; tauto | exists (lit "ab"); cbn; tauto]|]). destruct I.
    + intros [->|(u & I)]; [cbn; auto|].
      assert (P : forall t, w ++ u = t -> In w (map (fun i => firstn i t) (seq 0 (S (length t))))).
      { intros t <-. apply in_map_iff. exists (length w). split; [|apply in_seq; rewrite app_length; lia].
        rewrite firstn_app, Nat.sub_diag, firstn_all. cbn. apply app_nil_r. }
      destruct I as [E|[E|[E|[E|[]]]]]; symmetry in E; apply P in E; vm_compute in E; clear P;
        repeat (destruct E as [<-|E]; [vm_compute; tauto|]); destruct E.
  - split; [vm_compute; reflexivity|]. eexists. vm_compute. reflexivity.
Qed.

(** ** A short file can describe a dictionary that takes exponential time to destroy:
    [70 n + 75] bytes, [n + 1] nodes, [2^(n+1) - 1] iterations. *)
Theorem C66_short_file : forall n alloc h, allocator alloc ->
  well_formed (ladder n) /\ length (m_nodes (ladder n)) = n + 1 /\ length (encode (ladder n)) <= 70 * n + 75 /\
  exists h' b, from_protobuf alloc h (ladder n) = Ok (h', b) /\
    (exists h'', runs_to (fun fuel => destroy fuel h' b) h'') /\
    forall fuel, destroy fuel h' b = OOF <-> fuel < 2 * 2 ^ n.
Proof.
  intros n alloc h A. pose proof (ladder_well_formed n) as Wf. split; [exact Wf|]. split.
  { cbn [ladder m_nodes]. rewrite map_length, seq_length. lia. }
  split; [apply ladder_length|].
  destruct (from_protobuf_ok alloc h (ladder n) A Wf) as (f & h' & E & Lo).
  eexists h', _. split; [exact E|].
  pose proof (ladder_unf _ _ _ _ Lo n ltac:(lia)) as U. rewrite Nat.sub_diag in U.
  pose proof (ltree_size n) as Sz. split.
  - destruct (destroy_dawg_all h' (Dawg (f (m_root (ladder n))) (m_size (ladder n))) (ltree n) U) as (h2 & E2 & _).
    exists h2. eexists. intros fuel Hf. unfold destroy, clean_up. cbn [b_work rbind b_dawg]. apply E2. exact Hf.
  - intros fuel. unfold destroy, clean_up. cbn [b_work rbind b_dawg].
    rewrite (destroy_dawg_fuel h' (Dawg (f (m_root (ladder n))) (m_size (ladder n))) (ltree n) U). lia.
Qed.
Print Assumptions C66_short_file.

(** ** C67: the hash of a dictionary takes few values. *)
Theorem C67_few_codes : exists codes, (N.of_nat (length codes) <= 65536)%N /\
  forall fuel h d code, dawg_hash fuel h d = Ok code -> In code codes.
Proof.
  exists codes. split; [rewrite codes_length; discriminate|].
  intros fuel h d code E. unfold dawg_hash in E.
  destruct (read h (d_root d)) as [n| |]; cbn [rbind] in E; try discriminate.
  destruct (node_hash fuel h n) as [k| |]; cbn [rbind] in E; try discriminate. injection E as <-. apply codes_In.
Qed.
Print Assumptions C67_few_codes.

(** So among any 65537 dictionaries two share a code. *)
Theorem C67_collision : forall fuel h ds, (65536 < N.of_nat (length ds))%N ->
  (forall d, In d ds -> exists code, dawg_hash fuel h d = Ok code) ->
  exists i j d1 d2, i < j /\ nth_error ds i = Some d1 /\ nth_error ds j = Some d2 /\ dawg_hash fuel h d1 = dawg_hash fuel h d2.
Proof.
  intros fuel h ds L H. destruct C67_few_codes as (cs & Lc & Hc).
  set (val := fun d => match dawg_hash fuel h d with Ok c => c | _ => 0%N end).
  assert (V : forall d, In d ds -> dawg_hash fuel h d = Ok (val d)).
  { intros d I. destruct (H d I) as (c & E). unfold val. rewrite E. reflexivity. }
  assert (D : ~ NoDup (map val ds)).
  { intros ND. apply (NoDup_incl_length (l' := cs)) in ND; [rewrite map_length in ND; lia|].
    intros c I. apply in_map_iff in I. destruct I as (d & <- & I). eapply Hc. apply V; auto. }
  clear L H Hc Lc. induction ds as [|d ds IH]; [exfalso; apply D; constructor|].
  destruct (in_dec N.eq_dec (val d) (map val ds)) as [I|I].
  - apply in_map_iff in I. destruct I as (d' & E & I). destruct (In_nth_error _ _ I) as (j & Ej).
    exists 0, (S j), d, d'. split; [lia|]. split; [auto|]. split; [auto|].
    rewrite (V d), (V d'), E by (cbn; auto). reflexivity.
  - destruct IH as (i & j & d1 & d2 & Lt & E1 & E2 & E).
    + intros; apply V; right; auto.
    + intros ND. apply D. constructor; auto.
    + exists (S i), (S j), d1, d2. split; [lia|]. auto.
Qed.
Print Assumptions C67_collision.

(** Two different dictionaries with one code. *)
Example C67_case : exists h1 b1 h2 b2 code,
  sorted_dawg 20 bump [] [lit "an"] = Ok (h1, Some b1) /\
  sorted_dawg 20 bump h1 [lit "bi"] = Ok (h2, Some b2) /\
  dawg_eq 20 h2 (b_dawg b1) (b_dawg b2) = Ok false /\
  dawg_hash 20 h2 (b_dawg b1) = Ok code /\ dawg_hash 20 h2 (b_dawg b2) = Ok code.
Proof. eexists _, _, _, _, _. run. run. run. run. vm_compute; reflexivity. Qed.

Example C66_short_file_case : exists h b, from_protobuf bump [] (ladder 3) = Ok (h, b) /\
  contains h (b_dawg b) (lit "aba") = Ok true /\ contains h (b_dawg b) (lit "ab") = Ok false /\
  destroy 15 h b = OOF /\ exists h', destroy 16 h b = Ok h'.
Proof. eexists _, _. run. run. run. run. eexists. vm_compute; reflexivity. Qed.
