(** * BallProofs: how many strings are close to a string (C96). *)
From Verif Require Import Base Spec SpecBall.
Local Open Scope nat_scope.

(** A string that starts with [v] can be aligned only if [v] can be aligned with a
    prefix of the other string. *)
Lemma aligned_prefix : forall a n q w, aligned a n q w -> forall v z, w = v ++ z ->
  exists p p' k, q = p ++ p' /\ k <= n /\ aligned a k p v.
Proof.
  intros a n q w H. induction H as [|n c v w H IH|n c v w H IH|n c v w H IH|n c d v w H IH|n c d v w Ha H IH|n c d e v w Ha H IH|n c d e v w Ha H IH];
    intros v0 z E; cbn [app] in E.
  - destruct v0; [|discriminate]. exists [], [], 0. repeat split; auto. constructor.
  - destruct v0 as [|x v0]; [exists [], (c :: v), 0; repeat split; [lia|constructor]|]. injection E as <- E.
    destruct (IH _ _ E) as (p & p' & k & -> & Hk & A). exists (c :: p), p', k. repeat split; auto. now constructor.
  - destruct (IH _ _ E) as (p & p' & k & -> & Hk & A). exists (c :: p), p', (S k). repeat split; [lia|now constructor].
  - destruct v0 as [|x v0]; [exists [], v, 0; repeat split; [lia|constructor]|]. injection E as <- E.
    destruct (IH _ _ E) as (p & p' & k & -> & Hk & A). exists p, p', (S k). repeat split; [lia|now constructor].
  - destruct v0 as [|x v0]; [exists [], (c :: v), 0; repeat split; [lia|constructor]|]. injection E as <- E.
    destruct (IH _ _ E) as (p & p' & k & -> & Hk & A). exists (c :: p), p', (S k). repeat split; [lia|now constructor].
  - destruct v0 as [|x v0]; [exists [], (c :: d :: v), 0; repeat split; [lia|constructor]|]. injection E as <- E.
    destruct v0 as [|y v0]; [exists [], (c :: d :: v), 1; repeat split; [lia|repeat constructor]|]. cbn [app] in E. injection E as <- E.
    destruct (IH _ _ E) as (p & p' & k & -> & Hk & A). exists (c :: d :: p), p', (S k). repeat split; [lia|now constructor].
  - destruct v0 as [|x v0]; [exists [], (c :: d :: v), 0; repeat split; [lia|constructor]|]. injection E as <- E.
    destruct (IH _ _ E) as (p & p' & k & -> & Hk & A). exists (c :: d :: p), p', (S k). repeat split; [lia|now constructor].
  - destruct v0 as [|x v0]; [exists [], (c :: v), 0; repeat split; [lia|constructor]|]. injection E as <- E.
    destruct v0 as [|y v0]; [exists [c], v, 1; repeat split; [lia|apply al_substitute, al_nil]|]. cbn [app] in E. injection E as <- E.
    destruct (IH _ _ E) as (p & p' & k & -> & Hk & A). exists (c :: p), p', (S k). repeat split; [lia|now constructor].
Qed.

Section Ball.
  Variables (alg : algorithm) (letters : list char).
  Notation s := (length letters).

  Definition over (v : str) : Prop := forall c, In c v -> In c letters.

  Definition covers (n : nat) (p : str) (l : list str) : Prop := forall v k, over v -> k <= n -> aligned alg k p v -> In v l.

  Definition first (l : list str) : list str := flat_map (fun c => map (cons c) l) letters.

  Lemma first_In v c l : In v l -> over (c :: v) -> In (c :: v) (first l).
  Proof.
    intros I O. apply in_flat_map. exists c. split; [apply O; left; reflexivity|]. apply in_map. exact I.
  Qed.

  Lemma first_length l : length (first l) = s * length l.
  Proof.
    unfold first. generalize letters as L. intros L. induction L as [|c L IH]; auto. cbn [flat_map length]. rewrite app_length, map_length, IH. lia.
  Qed.

  Lemma over_tail c v : over (c :: v) -> over v.
  Proof. intros O x I. apply O. right. exact I. Qed.

  Lemma nearby_mono m m' n : m <= m' -> nearby alg s m n <= nearby alg s m' n.
  Proof.
    intros L. unfold nearby. apply Nat.pow_le_mono_l. apply Nat.add_le_mono_r. apply Nat.mul_le_mono_r. lia.
  Qed.

  Lemma nearby_pos m n : 1 <= nearby alg s m n.
  Proof. unfold nearby. assert (((m + 1) * choices alg s + 1) ^ n <> 0) by (apply Nat.pow_nonzero; lia). lia. Qed.

  (** What one operation at the front adds. *)
  Lemma front n (IHn : forall p, exists l, covers n p l /\ length l <= nearby alg s (length p) n) : forall p,
    exists l, covers (S n) p l /\ length l <= 1 + s * nearby alg s (length p) n + length p * (choices alg s * nearby alg s (length p) n).
  Proof.
    induction p as [|c p IH].
    - destruct (IHn []) as (l & C & Le). exists ([] :: first l). split.
      + intros v k O Hk A. inversion A as [| | |k' d v' w' A' E1 E2 E3| | | |]; subst; [left; reflexivity|].
        right. apply first_In; [|exact O]. apply (C w' k'); [eapply over_tail; eauto|lia|exact A'].
      + cbn [length]. rewrite first_length. cbn [length] in Le. pose proof (Nat.mul_le_mono_l _ _ s Le). lia.
    - destruct IH as (l0 & C0 & L0). destruct (IHn (c :: p)) as (l1 & C1 & L1). destruct (IHn p) as (l2 & C2 & L2).
      assert (Mo : nearby alg s (length p) n <= nearby alg s (length (c :: p)) n) by (apply nearby_mono; cbn; lia).
      assert (T : exists l3, (alg <> STANDARD -> covers n (tl p) l3) /\ length l3 <= nearby alg s (length (c :: p)) n).
      { destruct (IHn (tl p)) as (l3 & C3 & L3). exists l3. split; auto. etransitivity; [exact L3|]. apply nearby_mono. destruct p; cbn; lia. }
      destruct T as (l3 & C3 & L3).
      set (more := match alg with
                   | STANDARD => []
                   | TRANSPOSITION => match p with [] => [] | d :: _ => map (fun v => d :: c :: v) l3 end
                   | MERGE_AND_SPLIT => first l3 ++ first (first l2)
                   end).
      exists (map (cons c) l0 ++ l2 ++ first l1 ++ first l2 ++ more). split.
      + intros v k O Hk A. rewrite !in_app_iff.
        inversion A as [|k' c' v' w' A' E1 E2 E3|k' c' v' w' A' E1 E2 E3|k' d v' w' A' E1 E2 E3|k' c' d v' w' A' E1 E2 E3
                       |k' c' d v' w' Ha A' E1 E2 E3|k' c' d e v' w' Ha A' E1 E2 E3|k' c' d e v' w' Ha A' E1 E2 E3]; subst.
        * left. apply in_map. apply (C0 w' k); auto. eapply over_tail; eauto.
        * right. left. apply (C2 v k'); auto. lia.
        * right. right. left. apply first_In; [|exact O]. apply (C1 w' k'); auto; [eapply over_tail; eauto|lia].
        * right. right. right. left. apply first_In; [|exact O]. apply (C2 w' k'); auto; [eapply over_tail; eauto|lia].
        * right. right. right. right. unfold more. rewrite Ha. apply in_map_iff. exists w'. split; [reflexivity|].
          apply (C3 ltac:(rewrite Ha; discriminate) w' k'); auto; [|lia]. eapply over_tail, over_tail; eauto.
        * right. right. right. right. unfold more. rewrite Ha. apply in_app_iff. left. apply first_In; [|exact O].
          apply (C3 ltac:(rewrite Ha; discriminate) w' k'); auto; [|lia]. eapply over_tail; eauto.
        * right. right. right. right. unfold more. rewrite Ha. apply in_app_iff. right. apply first_In; [|exact O].
          apply first_In; [|eapply over_tail; eauto]. apply (C2 w' k'); auto; [|lia]. eapply over_tail, over_tail; eauto.
      + set (X := nearby alg s (length (c :: p)) n) in *.
        assert (Lm : length more + (s + s + 1) * X <= choices alg s * X).
        { unfold more, choices. destruct alg.
          - cbn. lia.
          - destruct p as [|d p']; [cbn [length]; lia|]. rewrite map_length. lia.
          - rewrite app_length, !first_length. pose proof (Nat.mul_le_mono_l _ _ s L3).
            assert (s * (s * length l2) <= s * (s * X)) by (apply Nat.mul_le_mono_l, Nat.mul_le_mono_l; lia). lia. }
        rewrite !app_length, map_length, !first_length.
        assert (s * length l1 <= s * X) by (apply Nat.mul_le_mono_l; lia).
        assert (s * length l2 <= s * X) by (apply Nat.mul_le_mono_l; lia).
        assert (s * nearby alg s (length p) n <= s * X) by (apply Nat.mul_le_mono_l; lia).
        assert (length p * (choices alg s * nearby alg s (length p) n) <= length p * (choices alg s * X)).
        { apply Nat.mul_le_mono_l, Nat.mul_le_mono_l. lia. }
        cbn [length]. rewrite Nat.mul_succ_l. lia.
  Qed.

  Lemma ball : forall n p, exists l, covers n p l /\ length l <= nearby alg s (length p) n.
  Proof.
    induction n as [|n IH]; intros p.
    - exists [p]. split; [|cbn; lia]. intros v k O Hk A. assert (k = 0) as -> by lia. left.
      clear - A. remember 0 as k eqn:E in A. revert E. induction A; intros E; try discriminate; auto. f_equal. auto.
    - destruct (front n IH p) as (l & C & L). exists l. split; auto. etransitivity; [exact L|].
      change (nearby alg s (length p) (S n)) with (((length p + 1) * choices alg s + 1) * nearby alg s (length p) n).
      pose proof (nearby_pos (length p) n). set (X := nearby alg s (length p) n) in *.
      assert (s * X <= choices alg s * X) by (apply Nat.mul_le_mono_r; unfold choices; destruct alg; lia).
      rewrite Nat.mul_add_distr_r, Nat.mul_add_distr_r, Nat.mul_add_distr_r, !Nat.mul_1_l, <- Nat.mul_assoc. lia.
  Qed.

  (** Everything close to a prefix of [q]. *)
  Lemma balls : forall n q, exists l,
    (forall v z k, over v -> k <= n -> aligned alg k q (v ++ z) -> In v l) /\ length l <= (length q + 1) * nearby alg s (length q) n.
  Proof.
    intros n q.
    assert (G : forall ps, (forall p, In p ps -> length p <= length q) ->
      exists l, (forall p v k, In p ps -> over v -> k <= n -> aligned alg k p v -> In v l) /\ length l <= length ps * nearby alg s (length q) n).
    { induction ps as [|p ps IH]; intros H.
      - exists []. split; [intros p v k []|cbn; lia].
      - destruct IH as (l & C & L); [intros; apply H; right; auto|]. destruct (ball n p) as (l1 & C1 & L1).
        exists (l1 ++ l). split.
        + intros p0 v k [<-|I] O Hk A; apply in_app_iff; [left; eapply C1; eauto|right; eapply C; eauto].
        + rewrite app_length. cbn [length]. pose proof (nearby_mono (length p) (length q) n (H p (or_introl eq_refl))). lia. }
    destruct (G (map (fun i => firstn i q) (seq 0 (length q + 1)))) as (l & C & L).
    { intros p I. apply in_map_iff in I. destruct I as (i & <- & _). rewrite firstn_length. lia. }
    exists l. rewrite map_length, seq_length in L. split; auto. intros v z k O Hk A.
    destruct (aligned_prefix _ _ _ _ A v z eq_refl) as (p & p' & k' & -> & Hk' & A').
    eapply C; [|exact O| |exact A']; [|lia]. apply in_map_iff. exists (length p). split.
    - rewrite firstn_app, firstn_all, Nat.sub_diag. cbn. apply app_nil_r.
    - apply in_seq. rewrite app_length. lia.
  Qed.
End Ball.
