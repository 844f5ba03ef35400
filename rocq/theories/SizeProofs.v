(** * SizeProofs: how long the message of a dictionary is. *)
From Coq Require Import Sorting.Sorted Sorting.Permutation.
From Verif Require Import Base Spec ModelDawg ModelSerial ModelWire SpecDawg SpecSerial SpecWire
  TreeProofs HeapProofs DawgProofs SerialProofs.
Local Open Scope nat_scope.

(** ** Counting *)
Lemma count_by {A B} (P : list B) (R : A -> B -> Prop) : forall l, NoDup l ->
  (forall x, In x l -> exists w, In w P /\ R x w) ->
  (forall x y w, In x l -> In y l -> R x w -> R y w -> x = y) -> length l <= length P.
Proof.
  intros l. revert P. induction l as [|x l IH]; intros P ND Ex Fn; [cbn; lia|].
  inversion ND as [|? ? Nx ND']; subst. destruct (Ex x (or_introl eq_refl)) as (w & Iw & Rw).
  apply in_split in Iw. destruct Iw as (P1 & P2 & ->).
  assert (length l <= length (P1 ++ P2)).
  { apply IH; auto.
    - intros y Iy. destruct (Ex y (or_intror Iy)) as (v & Iv & Rv). exists v. split; auto.
      apply in_app_iff in Iv. apply in_app_iff. destruct Iv as [Iv|[<-|Iv]]; auto.
      exfalso. apply Nx. rewrite (Fn x y w); auto; [left|right]; auto.
    - intros y z v Iy Iz. apply Fn; right; auto. }
  rewrite app_length in *. cbn. lia.
Qed.

(** The paths of a tree. *)
Fixpoint tpaths (t : tree) : list str :=
  match t with
  | T _ es => [] :: flat_map (fun e => map (cons (fst e)) (tpaths (snd e))) es
  end.

Lemma tpaths_length : forall t, length (tpaths t) = tsize t.
Proof.
  apply tree_ind'. intros f es F. cbn. f_equal.
  induction F as [|[c t] es H F IH]; cbn; auto. rewrite app_length, map_length. cbn in H. lia.
Qed.

Lemma path_tpaths : forall h w p t q, unf h p t -> path h p w q -> In w (tpaths t).
Proof.
  intros h w. induction w as [|c w IH]; intros p t q U P.
  - destruct t. left. auto.
  - inversion P as [|? n ? r ? ? G I P']; subst. inversion U as [? n' es Np G' So Us]; subst.
    rewrite G in G'. injection G' as <-. right. apply in_flat_map.
    clear - I Us IH P'. induction Us as [|d s t es ts Ud Us IHs]; [destruct I|].
    destruct I as [X|I].
    + injection X as -> ->. exists (c, t). split; [left; auto|]. cbn. apply in_map. eauto.
    + destruct (IHs I) as (e & Ie & H). exists e. split; auto. right. auto.
Qed.

Lemma path_det : forall h w p t q r, unf h p t -> path h p w q -> path h p w r -> q = r.
Proof.
  intros h w. induction w as [|c w IH]; intros p t q r U P Q.
  - inversion P; subst. inversion Q; subst. auto.
  - inversion P as [|? n ? x ? ? G I P']; subst. inversion Q as [|? n' ? y ? ? G' I' Q']; subst.
    rewrite G in G'. injection G' as <-. inversion U as [? n' es Np G' So Us]; subst.
    rewrite G in G'. injection G' as <-.
    pose proof (edge_In_get _ _ _ _ So I) as E1. pose proof (edge_In_get _ _ _ _ So I') as E2.
    assert (x = y) as <- by congruence.
    destruct (unfs_In _ _ _ _ _ Us I) as (t' & _ & Ux). eauto.
Qed.

Lemma trie_size_from : forall ts t, tsorted t -> tsize (trie_from t ts) <= tsize t + length (concat ts).
Proof.
  induction ts as [|w ts IH]; intros t S; cbn [trie_from fold_left concat]; [cbn; lia|].
  fold (trie_from (tadd t w) ts). rewrite app_length.
  specialize (IH (tadd t w) (tadd_sorted _ _ S)). pose proof (tsize_tadd w t S). lia.
Qed.

Lemma trie_size : forall ts, tsize (trie ts) <= 1 + length (concat ts).
Proof. intros. pose proof (trie_size_from ts leaf tsorted_leaf). rewrite tsize_leaf in H. exact H. Qed.

Lemma nodes_count : forall h d m t, unf h (d_root d) t -> describes h d m ->
  length (m_nodes m) <= tsize t /\ length (m_finals m) <= tsize t /\ length (m_edges m) + 1 <= tsize t.
Proof.
  intros h d m t U De. rewrite <- tpaths_length.
  assert (Nd : forall l, NoDup l -> (forall x, In x l -> reach h (d_root d) x) -> length l <= length (tpaths t)).
  { intros l ND Rl. apply (count_by _ (fun x w => path h (d_root d) w x)); auto.
    - intros x I. destruct (Rl x I) as (w & P). exists w. split; auto. eapply path_tpaths; eauto.
    - intros x y w _ _ P Q. eapply path_det; eauto. }
  split; [|split].
  - apply Nd; [apply De|]. intros x. apply (ds_nodes _ _ _ De).
  - apply Nd; [apply De|]. intros x I. apply (ds_finals _ _ _ De) in I. apply I.
  - assert (P : forall w q, w <> [] -> path h (d_root d) w q -> In w (tl (tpaths t))).
    { intros w q Nw P. apply (path_tpaths _ _ _ _ _ U) in P. destruct t. destruct P; [congruence|auto]. }
    assert (length (m_edges m) <= length (tl (tpaths t))).
    { set (key := fun e => (em_source e, label_of_msg (em_label e))).
      rewrite <- (map_length key).
      apply (count_by _ (fun k w => exists u, w = u ++ [snd k] /\ path h (d_root d) u (fst k))).
      - apply De.
      - intros k I. apply in_map_iff in I. destruct I as (e & <- & I). apply (ds_edges _ _ _ De) in I.
        destruct I as (x & c & q & -> & (u & Pu) & n & G & I). unfold key. cbn. rewrite label_round.
        exists (u ++ [c]). split; [|eauto]. apply (P _ q); [destruct u; discriminate|]. eapply path_snoc; eauto.
      - intros [x c] [y b] w _ _ (u & -> & Pu) (v & E & Pv). cbn in *. apply app_inj_tail in E. destruct E as [<- <-].
        f_equal. eapply path_det; eauto. }
    destruct t. cbn in *. lia.
Qed.

(** ** Bytes *)
Lemma put_varint_length : forall width n, length (put_varint width n) <= width.
Proof.
  induction width as [|width IH]; intros n; cbn; auto. destruct (n <? 128)%N; cbn; [lia|]. specialize (IH (n / 128)%N). lia.
Qed.

Lemma put_varint_short : forall k width n, (n < 128 ^ N.of_nat k)%N -> length (put_varint width n) <= S (pred k).
Proof.
  induction k as [|k IH]; intros [|width] n L; cbn [put_varint length]; try lia.
  - cbn in L. destruct (N.ltb_spec n 128); cbn; lia.
  - destruct (N.ltb_spec n 128); cbn [length]; [lia|]. destruct k as [|k].
    + cbn in L. lia.
    + assert (n / 128 < 128 ^ N.of_nat (S k))%N.
      { apply N.div_lt_upper_bound; [discriminate|].
        replace (128 ^ N.of_nat (S (S k)))%N with (128 * 128 ^ N.of_nat (S k))%N in L; auto.
        rewrite (Nat2N.inj_succ (S k)), N.pow_succ_r'. auto. }
      specialize (IH width (n / 128)%N H0). cbn in *. lia.
Qed.

Lemma put_uint_length : forall k n, length (put_uint k n) <= 11.
Proof.
  intros. unfold put_uint. destruct (n =? 0)%N; cbn [length]; [lia|]. pose proof (put_varint_length 10 n). unfold varint. lia.
Qed.

Lemma put_packed_length : forall k ns, length (put_packed k ns) <= 11 + 10 * length ns.
Proof.
  intros. unfold put_packed. destruct ns as [|n ns]; [cbn; lia|]. unfold put_delimited. cbn [length]. rewrite app_length.
  pose proof (put_varint_length 10 (N.of_nat (length (flat_map varint (n :: ns))))). fold (varint (N.of_nat (length (flat_map varint (n :: ns))))) in H.
  assert (length (flat_map varint (n :: ns)) <= 10 * length (n :: ns)).
  { generalize (n :: ns). induction l as [|x l IH]; cbn [flat_map length]; [lia|]. rewrite app_length.
    pose proof (put_varint_length 10 x). fold (varint x) in H0. lia. }
  cbn [length] in *. lia.
Qed.

Lemma put_edge_length : forall e, (em_label e < 2 ^ 32)%N -> length (put_delimited 3 (put_edge e)) <= 30.
Proof.
  intros e L. assert (length (put_edge e) <= 28).
  { unfold put_edge. rewrite !app_length. pose proof (put_uint_length 1 (em_source e)). pose proof (put_uint_length 3 (em_target e)).
    assert (length (put_uint 2 (em_label e)) <= 6); [|lia].
    unfold put_uint. destruct (em_label e =? 0)%N; cbn [length]; [lia|].
    pose proof (put_varint_short 5 10 (em_label e)). unfold varint. cbn [pred] in H1. apply le_n_S, H1.
    eapply N.lt_trans; [exact L|]. vm_compute. reflexivity. }
  unfold put_delimited. cbn [length]. rewrite app_length.
  pose proof (put_varint_short 1 10 (N.of_nat (length (put_edge e)))). unfold varint. cbn [pred] in H0.
  assert (length (put_varint 10 (N.of_nat (length (put_edge e)))) <= 1); [|lia]. apply H0. cbn. lia.
Qed.

Lemma message_length : forall h d m terms, unf h (d_root d) (trie terms) -> describes h d m ->
  length (encode m) <= 50 * length (concat terms) + 64.
Proof.
  intros h d m terms U De. destruct (nodes_count _ _ _ _ U De) as (N1 & N2 & N3). pose proof (trie_size terms).
  unfold encode. rewrite !app_length. pose proof (put_packed_length 1 (m_nodes m)). pose proof (put_packed_length 2 (m_finals m)).
  pose proof (put_uint_length 4 (m_root m)). pose proof (put_uint_length 5 (m_size m)).
  assert (length (flat_map (fun e => put_delimited 3 (put_edge e)) (m_edges m)) <= 30 * length (m_edges m)).
  { assert (Lb : forall e, In e (m_edges m) -> (em_label e < 2 ^ 32)%N).
    { intros e I. apply (ds_edges _ _ _ De) in I. destruct I as (x & c & q & -> & _). cbn. destruct c as [[] [] [] [] [] [] [] []]; reflexivity. }
    revert Lb. generalize (m_edges m). induction l as [|e l IH]; intros Lb; cbn [flat_map length]; [lia|]. rewrite app_length.
    pose proof (put_edge_length e (Lb e (or_introl eq_refl))). specialize (IH (fun e I => Lb e (or_intror I))). lia. }
  lia.
Qed.
