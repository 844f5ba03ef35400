(** * SavedProofs: how many nodes, final nodes and edges a dictionary has. *)
From Coq Require Import Sorting.Sorted Sorting.Permutation.
From Verif Require Import Base Spec ModelDawg ModelSerial ModelWire SpecDawg SpecQuery SpecCost SpecUseCost TreeProofs HeapProofs BuildProofs BuildProofs2 DawgProofs
  SerialProofs SizeProofs QueryFacts BuildCostProofs BuildHoldProofs UseCostProofs.
Local Open Scope nat_scope.

(** Every dictionary is minimal, however it was made. *)
Lemma dictionary_minimal : forall terms h d, dictionary terms h d ->
  forall p q t, reach h (d_root d) p -> reach h (d_root d) q -> unf h p t -> unf h q t -> p = q.
Proof.
  intros terms h d D. induction D as [alloc h0 h b A R|alloc h0 offered flags h b A R Gr|alloc h d m h1 h2 b D IH Rm A E|h d h' D IH E].
  - apply sorted_dawg_built in R; auto. destruct R as (_ & Bu & _). exact (bu_min _ _ _ _ Bu).
  - destruct (finished_ok alloc h0 offered A) as (B & flags' & kept & h' & b' & w & Gr' & E & I & Un & Wk & S).
    assert (X : (flags, h, b) = (flags', h', b')).
    { eapply runs_to_det; eauto. exists B. auto. }
    injection X as <- <- <-. intros p q t. eapply inv_minimal; eauto.
  - destruct (dictionary_unf _ _ _ D) as (U & _ & _). pose proof (written h d m _ U Rm) as De.
    destruct (restored_copy alloc h d _ m h1 A U De) as (f & h2' & E' & C). rewrite E' in E. injection E as <- <-. cbn [b_dawg d_root].
    intros x y t Rx Ry Ux Uy. apply (copy_reach _ _ _ _ _ _ C U) in Rx. apply (copy_reach _ _ _ _ _ _ C U) in Ry.
    destruct Rx as (p & Rp & ->), Ry as (q & Rq & ->). f_equal.
    destruct (unf_reach _ _ _ Rp _ U) as (tp & Up & _). destruct (unf_reach _ _ _ Rq _ U) as (tq & Uq & _).
    pose proof (unf_det _ _ _ _ (copy_unf _ _ _ _ _ _ _ C Rp Up) Ux) as ->. pose proof (unf_det _ _ _ _ (copy_unf _ _ _ _ _ _ _ C Rq Uq) Uy) as ->.
    eapply IH; eauto.
  - destruct (dictionary_unf _ _ _ D) as (U & _ & _). intros p q t Rp Rq Up Uq.
    assert (Re : forall x, reach h' (d_root d) x -> reach h (d_root d) x).
    { intros x Rx. apply (reach_frame h h'); auto. }
    apply Re in Rp. apply Re in Rq. destruct (unf_reach _ _ _ Rp _ U) as (tp & Up' & _). destruct (unf_reach _ _ _ Rq _ U) as (tq & Uq' & _).
    assert (Fr : forall x tx, reach h (d_root d) x -> unf h x tx -> unf h' x tx).
    { intros x tx Rx Ux. eapply unf_frame with (P := reach h (d_root d)); eauto using reach_closed. }
    pose proof (unf_det _ _ _ _ (Fr _ _ Rp Up') Up) as ->. pose proof (unf_det _ _ _ _ (Fr _ _ Rq Uq') Uq) as ->. eapply IH; eauto.
Qed.

(** The nodes: the root, and one for every representative. *)
Lemma dictionary_nodes terms h d reps : dictionary terms h d -> representatives terms reps ->
  exists ps, NoDup ps /\ (forall p, In p ps <-> reach h (d_root d) p) /\ Forall2 (fun r p => path h (d_root d) r p) ([] :: reps) ps.
Proof.
  intros D (ND & Pre & Inj & All). destruct (dictionary_unf _ _ _ D) as (U & _ & _). pose proof (dictionary_minimal _ _ _ D) as Mi.
  set (root := d_root d) in *.
  assert (X : forall l, incl l reps -> exists ps, Forall2 (fun r p => path h root r p) l ps).
  { induction l as [|r l IH]; intros Ic; [exists []; constructor|]. destruct IH as (ps & F); [intros x J; apply Ic; now right|].
    destruct (Pre r (Ic r (or_introl eq_refl))) as (Nr & Hr). apply has_trie in Hr; [|exact Nr].
    destruct (sub_path h r root _ U Hr) as (q & P). exists (q :: ps). constructor; auto. }
  destruct (X reps (incl_refl _)) as (ps & F). exists (root :: ps).
  assert (In1 : forall p, In p ps -> exists r, In r reps /\ path h root r p).
  { clear -F. induction F as [|r p l ps P F IH]; intros q J; [destruct J|]. destruct J as [<-|J]; [exists r; split; [now left|auto]|].
    destruct (IH q J) as (r' & J' & P'). exists r'. split; [now right|auto]. }
  assert (In2 : forall r, In r reps -> exists p, In p ps /\ path h root r p).
  { clear -F. induction F as [|r p l ps P F IH]; intros q J; [destruct J|]. destruct J as [<-|J]; [exists p; split; [now left|auto]|].
    destruct (IH q J) as (r' & J' & P'). exists r'. split; [now right|auto]. }
  assert (Proper : forall w p, w <> [] -> path h root w p -> p <> root).
  { intros w p Nw' P ->. destruct w as [|c w]; [congruence|]. inversion P as [|? n ? r ? ? G I P']; subst.
    destruct (unf_inv _ _ _ U) as (n' & Np & G' & _ & Us & _). rewrite G in G'. injection G' as <-.
    destruct (unfs_In _ _ _ _ _ Us I) as (t' & Jt & Ut).
    assert (R : reach h r root) by (exists w; exact P').
    destruct (unf_reach _ _ _ R _ Ut) as (t2 & U2 & Hl).
    pose proof (unf_det _ _ _ _ U2 U) as ->.
    assert (Lt : height t' < height (trie terms)) by (destruct (trie terms); eapply height_edge; eauto).
    destruct Hl as [[E _]|L]; [rewrite E in Lt; lia|lia]. }
  split; [|split].
  - constructor.
    + intros J. destruct (In1 _ J) as (r & Jr & P). destruct (Pre r Jr) as (Nr & _). exact (Proper r root Nr P eq_refl).
    + clear -F ND Pre Inj U Mi. revert ND Pre Inj. induction F as [|r p l ps P F IH]; intros ND Pre Inj; constructor; inversion ND; subst.
      * intros J. assert (exists s, In s l /\ path h root s p) as (s & Js & Ps).
        { clear -F J. induction F as [|s q l ps P F IH]; [destruct J|]. destruct J as [->|J]; [exists s; split; [now left|auto]|].
          destruct (IH J) as (s' & J' & P'). exists s'. split; [now right|auto]. }
        destruct (path_sub h r root _ p U P) as (_ & U1). destruct (path_sub h s root _ p U Ps) as (_ & U2).
        pose proof (unf_det _ _ _ _ U1 U2) as E. apply sub_same in E.
        assert (r = s) by (apply Inj; auto; [now left|now right]). subst. contradiction.
      * apply IH; auto; intros; [apply Pre; now right|apply Inj; auto; now right].
  - intros p. split.
    + intros [<-|J]; [apply reach_refl|]. destruct (In1 _ J) as (r & _ & P). exists r. exact P.
    + intros (w & P). destruct w as [|c w]; [inversion P; now left|]. right.
      destruct (path_sub h _ _ _ _ U P) as (Hw & Uw). apply has_trie in Hw; [|discriminate]. destruct Hw as (u & J).
      destruct (All (c :: w) u ltac:(discriminate) J) as (r & Jr & Sm). destruct (In2 r Jr) as (q & Jq & Pq).
      destruct (path_sub h _ _ _ _ U Pq) as (_ & Uq). apply sub_same in Sm. rewrite Sm in Uw.
      assert (p = q) as ->; [|exact Jq]. eapply Mi; eauto; eexists; eauto.
  - constructor; [constructor|exact F].
Qed.

Lemma degrees_perm h a b : Permutation a b -> degrees h a = degrees h b.
Proof. intros P. unfold degrees, list_sum. induction P; cbn; lia. Qed.

Lemma saved_counts terms h d reps m : dictionary terms h d -> representatives terms reps -> describes h d m ->
  length (m_nodes m) = length ([] :: reps) /\
  (exists finals, NoDup finals /\ (forall r, In r finals <-> In r ([] :: reps) /\ In r terms) /\ length (m_finals m) = length finals) /\
  exists counts, Forall2 (can_follow terms) ([] :: reps) counts /\ length (m_edges m) = list_sum counts.
Proof.
  intros D Rp De. destruct (dictionary_nodes terms h d reps D Rp) as (ps & Nd & In_ & F). destruct (dictionary_unf _ _ _ D) as (U & _ & _).
  assert (P : Permutation (m_nodes m) ps).
  { apply NoDup_Permutation; [apply (ds_nodup _ _ _ De)|exact Nd|]. intros p. rewrite (ds_nodes _ _ _ De). symmetry. apply In_. }
  split; [|split].
  - rewrite (Permutation_length P). symmetry. clear -F. induction F; cbn; auto.
  - assert (X : exists fs finals, NoDup fs /\ NoDup finals /\ length fs = length finals /\
      (forall p, In p fs <-> In p ps /\ exists n, hget h p = Some n /\ nfin n = true) /\ (forall r, In r finals <-> In r ([] :: reps) /\ In r terms)).
    { assert (Ndr : NoDup ([] :: reps)).
      { destruct Rp as (Ndr & Pre & _). constructor; auto. intros J. destruct (Pre _ J) as (X & _). congruence. }
      clear -F U Nd Ndr. revert Nd Ndr. induction F as [|r p rs ps Pa F IH]; intros Nd Ndr.
      - exists [], []. repeat split; auto using NoDup_nil; try contradiction; intros [[] _].
      - inversion Nd as [|? ? Np Nps]; subst. inversion Ndr as [|? ? Nr Nrs]; subst.
        destruct (IH Nps Nrs) as (fs & finals & N1 & N2 & L & H1 & H2).
        destruct (path_sub h r _ _ p U Pa) as (_ & Up). destruct (unf_inv _ _ _ Up) as (n & _ & G & (_ & _ & Fi)).
        destruct (nfin n) eqn:E.
        + exists (p :: fs), (r :: finals). split; [constructor; auto; rewrite H1; tauto|]. split; [constructor; auto; rewrite H2; tauto|].
          split; [cbn; congruence|]. split.
          * intros q. cbn [In]. rewrite H1. split; [intros [<-|[J X]]; [split; [now left|eauto]|split; [now right|auto]]|].
            intros [[<-|J] X]; [now left|right; auto].
          * intros s. cbn [In]. rewrite H2. split; [intros [<-|[J X]]; [split; [now left|now apply fin_sub]|split; [now right|auto]]|].
            intros [[<-|J] X]; [now left|right; auto].
        + exists fs, finals. split; auto. split; auto. split; auto. split.
          * intros q. cbn [In]. rewrite H1. split; [intros [J X]; split; [now right|auto]|]. intros [[<-|J] (n' & G' & X)]; [congruence|eauto].
          * intros s. cbn [In]. rewrite H2. split; [intros [J X]; split; [now right|auto]|]. intros [[<-|J] X]; [|auto].
            apply fin_sub in X. congruence. }
    destruct X as (fs & finals & N1 & N2 & L & H1 & H2). exists finals. split; [exact N2|]. split; [exact H2|]. rewrite <- L.
    apply Permutation_length, NoDup_Permutation; [apply (ds_nodup_finals _ _ _ De)|exact N1|]. intros p. rewrite (ds_finals _ _ _ De), H1, In_. reflexivity.
  - rewrite <- (degrees_edges h d m _ U De), (degrees_perm h _ _ P). clear -F U. induction F as [|r p rs ps Pa F (cs & Fc & Ec)].
    + exists []. split; [constructor|reflexivity].
    + destruct (path_sub h r _ _ p U Pa) as (_ & Up). destruct (unf_inv _ _ _ Up) as (n & _ & G & (_ & Us & _)).
      exists (degree h p :: cs). split; [constructor; [|exact Fc]|unfold degrees, list_sum in *; cbn; congruence].
      apply follow_sub. unfold degree. rewrite G. eapply unfs_length; eauto.
Qed.

Lemma encode_length m : (forall e, In e (m_edges m) -> (em_label e < 2 ^ 32)%N) ->
  length (encode m) <= 10 * length (m_nodes m) + 10 * length (m_finals m) + 30 * length (m_edges m) + 44.
Proof.
  intros L. unfold encode. rewrite !app_length.
  pose proof (put_packed_length 1 (m_nodes m)). pose proof (put_packed_length 2 (m_finals m)).
  pose proof (put_uint_length 4 (m_root m)). pose proof (put_uint_length 5 (m_size m)).
  assert (length (flat_map (fun e => put_delimited 3 (put_edge e)) (m_edges m)) <= 30 * length (m_edges m)); [|lia].
  revert L. generalize (m_edges m). clear. induction l as [|e l IH]; intros L; cbn [flat_map length]; [lia|]. rewrite app_length.
  pose proof (put_edge_length e (L e (or_introl eq_refl))). specialize (IH (fun e I => L e (or_intror I))). lia.
Qed.
