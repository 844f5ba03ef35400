(** * DestroyProofs: the iterations of Dawg::all_nodes and the values of the hash. *)
From Coq Require Import Sorting.Sorted Sorting.Permutation.
From Verif Require Import Base Spec ModelHash ModelDawg ModelSerial ModelWire SpecDawg SpecSerial SpecWire SpecCost
  TreeProofs HeapProofs IterProofs DawgProofs SerialProofs SizeProofs BoundProofs QueryFacts.
Local Open Scope nat_scope.

(** ** Iterations *)
Lemma all_nodes_loop_short : forall fuel h ps ts nodes, Forall2 (unf h) ps ts -> fuel <= sizes ts ->
  all_nodes_loop fuel h ps nodes = OOF.
Proof.
  induction fuel as [|fuel IH]; intros h ps ts nodes U L; [reflexivity|].
  destruct U as [|p t ps ts Up U]; [cbn in L; lia|]. cbn [all_nodes_loop].
  destruct (unf_read _ _ _ Up) as (n & R & G & Sn & Un & Fn). rewrite R. cbn [rbind].
  apply IH with (ts := ts ++ map snd (tedges t)).
  - apply Forall2_app; auto. clear - Un. induction Un; cbn; constructor; auto.
  - destruct t as [f es]. cbn [sizes fold_right] in L. rewrite sizes_edges in L.
    rewrite sizes_app. cbn [tedges]. change (fold_right (fun t m => tsize t + m) 0 ts) with (sizes ts) in L. lia.
Qed.

Lemma destroy_dawg_fuel : forall h d t, unf h (d_root d) t -> forall fuel,
  (destroy_dawg fuel h d = OOF <-> fuel <= tsize t).
Proof.
  intros h d t U fuel. unfold destroy_dawg, all_nodes. split.
  - intros E. destruct (le_lt_dec fuel (tsize t)) as [|L]; auto. exfalso.
    destruct (all_nodes_loop_ok fuel h [d_root d] [t] []) as (out & E' & ND & I).
    + constructor; [exact U|constructor].
    + cbn. lia.
    + constructor.
    + rewrite E' in E. cbn [rbind] in E. clear -E.
      revert h E. induction out as [|p out IH]; intros h E; cbn in E; [discriminate|].
      destruct (delete h p) as [h'| |] eqn:D; cbn [rbind] in E; eauto; try discriminate.
      unfold delete in D. destruct (p =? null)%N; [discriminate|]. destruct (hget h p); discriminate.
  - intros L. rewrite (all_nodes_loop_short fuel h [d_root d] [t] []); auto. cbn [sizes fold_right]. lia.
Qed.

(** ** Prefixes *)
Lemma enum_full : forall q, length (enum (fullq q)) = qsize q.
Proof.
  apply queue_ind; [reflexivity|].
  intros s f es q IH. rewrite qsize_step. unfold fullq. cbn [map fst snd full]. rewrite enum_cons. cbn [app length]. f_equal.
  rewrite <- IH. unfold fullq. rewrite map_app. do 3 f_equal. unfold children. rewrite !map_map. reflexivity.
Qed.

Lemma prefixes_listed : forall terms, exists ps, lists_prefixes terms ps /\ length ps = tsize (trie terms).
Proof.
  intros terms. exists (words (full (trie terms))). pose proof (full_sorted _ (trie_sorted terms)) as So. split; [split|].
  - apply StronglySorted_NoDup with shortlex_lt; [apply shortlex_irrefl|]. apply words_sorted; auto.
  - intros [|c w]; rewrite words_In by auto.
    + split; [auto|]. destruct (trie terms). reflexivity.
    + rewrite tin_full_trie. split; [auto|]. intros [X|X]; [discriminate|auto].
  - pose proof (enum_full [([], trie terms)]) as E. unfold qsize, sizes in E. cbn [map snd fold_right] in E. rewrite Nat.add_0_r in E. exact E.
Qed.

(** ** The ladder *)
Fixpoint ltree (k : nat) : tree :=
  match k with
  | O => T true []
  | S k' => T false [("a"%char, ltree k'); ("b"%char, ltree k')]
  end.

Lemma ltree_size : forall k, S (tsize (ltree k)) = 2 * 2 ^ k.
Proof. induction k as [|k IH]; [reflexivity|]. cbn [ltree tsize fold_right snd]. cbn [Nat.pow]. lia. Qed.

Lemma ladder_edges : forall n e, In e (m_edges (ladder n)) <-> exists i, 1 <= i <= n /\ em_source e = N.of_nat i /\ em_target e = N.of_nat (S i) /\
  (em_label e = 97%N \/ em_label e = 98%N).
Proof.
  intros n e. unfold ladder. cbn [m_edges]. rewrite in_flat_map. split.
  - intros (i & I & [<-|[<-|[]]]); apply in_seq in I; exists i; cbn; repeat split; auto; lia.
  - intros (i & I & E1 & E2 & L). exists i. split; [apply in_seq; lia|]. destruct e as [s l t]. cbn in *. subst.
    destruct L as [->| ->]; auto.
Qed.

Lemma ladder_nodes : forall n i, In i (m_nodes (ladder n)) <-> exists k, i = N.of_nat k /\ 1 <= k <= S n.
Proof.
  intros n i. cbn [ladder m_nodes]. rewrite in_map_iff. split; intros (k & E & I).
  - apply in_seq in I. exists k. split; auto. lia.
  - exists k. split; auto. apply in_seq. lia.
Qed.

Lemma ladder_well_formed : forall n, well_formed (ladder n).
Proof.
  intros n. constructor.
  - intros e I. apply ladder_edges in I. destruct I as (i & B & -> & _). apply ladder_nodes. exists i. split; auto. lia.
  - intros e I. apply ladder_edges in I. destruct I as (i & B & _ & -> & _). apply ladder_nodes. exists (S i). split; auto. lia.
  - cbn [ladder m_edges].
    assert (H : forall n b, NoDup (map (fun e => (em_source e, label_of_msg (em_label e)))
      (flat_map (fun i => [EdgeMsg (N.of_nat i) 97 (N.of_nat (S i)); EdgeMsg (N.of_nat i) 98 (N.of_nat (S i))]) (seq b n)))); [|apply H].
    clear. induction n as [|n IH]; intros b; [constructor|]. cbn [seq flat_map map app em_source em_label].
    assert (F : forall l, ~ In (N.of_nat b, l) (map (fun e => (em_source e, label_of_msg (em_label e)))
      (flat_map (fun i => [EdgeMsg (N.of_nat i) 97 (N.of_nat (S i)); EdgeMsg (N.of_nat i) 98 (N.of_nat (S i))]) (seq (S b) n)))).
    { intros l I. apply in_map_iff in I. destruct I as (e & E & I). apply in_flat_map in I. destruct I as (i & J & I).
      apply in_seq in J. destruct I as [<-|[<-|[]]]; cbn in E; injection E as E _; lia. }
    constructor; [|constructor; auto]. intros [X|X]; [|eapply F; eauto]. discriminate.
  - apply ladder_nodes. exists 1. split; auto. lia.
Qed.

Lemma ladder_unf : forall n h h' f, laid_out h h' (m_nodes (ladder n)) (m_finals (ladder n)) f (m_edges (ladder n)) ->
  forall k, k <= n -> unf h' (f (N.of_nat (S (n - k)))) (ltree k).
Proof.
  intros n h h' f Lo. induction k as [|k IH]; intros L.
  - assert (I : In (N.of_nat (S (n - 0))) (m_nodes (ladder n))) by (apply ladder_nodes; exists (S (n - 0)); split; auto; lia).
    destruct (lo_fresh _ _ _ _ _ _ Lo _ I) as [Nn _]. destruct (lo_node _ _ _ _ _ _ Lo _ I) as (nd & G & Fi & So & Ed).
    assert (E : nedges nd = []).
    { apply edges_ext; auto; [constructor|]. intros c. cbn. destruct (edge_get (nedges nd) c) as [q|] eqn:E; auto. exfalso.
      apply Ed in E. destruct E as (e & Ie & Es & _). apply ladder_edges in Ie. destruct Ie as (i & B & Es' & _). lia. }
    assert (F : nfin nd = true).
    { rewrite Fi. apply set_mem_In. cbn [ladder m_finals]. left. f_equal. lia. }
    cbn [ltree]. rewrite <- F. econstructor; eauto. rewrite E. constructor.
  - specialize (IH ltac:(lia)). replace (S (n - k)) with (S (S (n - S k))) in IH by lia.
    remember (S (n - S k)) as j eqn:J.
    assert (I : In (N.of_nat j) (m_nodes (ladder n))) by (apply ladder_nodes; exists j; split; auto; lia).
    destruct (lo_fresh _ _ _ _ _ _ Lo _ I) as [Nn _]. destruct (lo_node _ _ _ _ _ _ Lo _ I) as (nd & G & Fi & So & Ed).
    assert (E : nedges nd = [("a"%char, f (N.of_nat (S j))); ("b"%char, f (N.of_nat (S j)))]).
    { assert (Se : esorted [("a"%char, f (N.of_nat (S j))); ("b"%char, f (N.of_nat (S j)))]) by (repeat constructor; cbn; reflexivity).
      apply edges_ext; auto. intros c.
      assert (X : forall q, edge_get (nedges nd) c = Some q <-> (c = "a"%char \/ c = "b"%char) /\ q = f (N.of_nat (S j))).
      { intros q. rewrite Ed. split.
        - intros (e & Ie & Es & El & Et). apply ladder_edges in Ie. destruct Ie as (i & B & Es' & Et' & La).
          assert (i = j) by lia. subst i. split; [|congruence]. rewrite <- El. destruct La as [-> | ->]; [left|right]; reflexivity.
        - intros [C ->]. exists (EdgeMsg (N.of_nat j) (if Ascii.eqb c "a"%char then 97 else 98)%N (N.of_nat (S j))). split.
          + apply ladder_edges. exists j. cbn. repeat split; auto; try lia. destruct (Ascii.eqb c "a"); auto.
          + cbn. destruct C as [-> | ->]; auto. }
      cbn [edge_get find fst snd option_map]. destruct (ceqb_spec c "a"%char) as [[-> Ea]|[Na Ea]]; rewrite Ea; [apply X; split; [auto|reflexivity]|].
      destruct (ceqb_spec c "b"%char) as [[-> Eb]|[Nb Eb]]; rewrite Eb; [apply X; split; [auto|reflexivity]|].
      destruct (edge_get (nedges nd) c) as [q|]; auto. destruct (proj1 (X q) eq_refl) as [[|] _]; contradiction. }
    assert (F : nfin nd = false).
    { rewrite Fi. apply not_true_iff_false. rewrite set_mem_In. cbn [ladder m_finals]. intros [X|[]]. lia. }
    assert (U : unfs h' (nedges nd) [("a"%char, ltree k); ("b"%char, ltree k)]).
    { rewrite E. constructor; [exact IH|]. constructor; [exact IH|constructor]. }
    pose proof (unf_ptr h' (f (N.of_nat j)) nd _ Nn G So U) as R. rewrite F in R. exact R.
Qed.

Lemma ladder_length : forall n, length (encode (ladder n)) <= 70 * n + 75.
Proof.
  intros n. unfold encode. rewrite !app_length.
  pose proof (put_packed_length 1 (m_nodes (ladder n))). pose proof (put_packed_length 2 (m_finals (ladder n))).
  pose proof (put_uint_length 4 (m_root (ladder n))). pose proof (put_uint_length 5 (m_size (ladder n))).
  assert (length (flat_map (fun e => put_delimited 3 (put_edge e)) (m_edges (ladder n))) <= 30 * length (m_edges (ladder n))).
  { assert (Lb : forall e, In e (m_edges (ladder n)) -> (em_label e < 2 ^ 32)%N).
    { intros e I. apply ladder_edges in I. destruct I as (i & _ & _ & _ & [->| ->]); reflexivity. }
    revert Lb. generalize (m_edges (ladder n)). induction l as [|e l IH]; intros Lb; cbn [flat_map length]; [lia|]. rewrite app_length.
    pose proof (put_edge_length e (Lb e (or_introl eq_refl))). specialize (IH (fun e I => Lb e (or_intror I))). lia. }
  assert (length (m_edges (ladder n)) = 2 * n).
  { cbn [ladder m_edges]. clear.
    assert (H : forall n b, length (flat_map (fun i => [EdgeMsg (N.of_nat i) 97 (N.of_nat (S i)); EdgeMsg (N.of_nat i) 98 (N.of_nat (S i))]) (seq b n)) = 2 * n); [|apply H].
    clear. induction n as [|n IH]; intros b; [reflexivity|]. cbn [seq flat_map app length]. rewrite IH. lia. }
  cbn [ladder m_nodes m_finals length] in *. rewrite map_length, seq_length in *. lia.
Qed.

(** ** Hash values *)
Definition codes : list N :=
  flat_map (fun i => map (fun j => murmur_key (N.of_nat j) (murmur_key (N.of_nat i) DEADBEEF)) (seq 0 256)) (seq 0 256).

Lemma murmur_key_low : forall k s, murmur_key k s = murmur_key (k mod 256)%N s.
Proof. intros. unfold murmur_key. rewrite N.mod_mod by discriminate. reflexivity. Qed.

Lemma codes_In : forall a b, In (murmur_key b (murmur_key a DEADBEEF)) codes.
Proof.
  intros a b. rewrite (murmur_key_low a), (murmur_key_low b). unfold codes.
  assert (forall k, exists i, (k mod 256)%N = N.of_nat i /\ i < 256).
  { intros k. exists (N.to_nat (k mod 256)). pose proof (N.mod_lt k 256 ltac:(discriminate)). lia. }
  destruct (H a) as (i & -> & Hi). destruct (H b) as (j & -> & Hj).
  apply in_flat_map. exists i. split; [apply in_seq; lia|]. apply in_map_iff. exists j. split; auto. apply in_seq. lia.
Qed.

Lemma codes_length : N.of_nat (length codes) = 65536%N.
Proof.
  unfold codes.
  assert (H : forall l, length (flat_map (fun i => map (fun j => murmur_key (N.of_nat j) (murmur_key (N.of_nat i) DEADBEEF)) (seq 0 256)) l) = length l * 256).
  { induction l as [|i l IH]; [reflexivity|]. cbn [flat_map length]. rewrite app_length, map_length, seq_length, IH. lia. }
  rewrite H, seq_length. reflexivity.
Qed.
