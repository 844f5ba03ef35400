(** * What an alignment does with the next character of the second string.

    Normal forms used by the transducer: deletions can be postponed except in
    front of a match. *)
From Verif Require Import Base Spec AlignProofs.

Lemma cle_skip a t : forall m y u, cost_le a m (skipn t y) u -> cost_le a (t + m) y u.
Proof.
  induction t as [|t IH]; intros m y u H; [exact H|].
  destruct y as [|d y]; simpl in H.
  - eapply cle_weaken; eauto; lia.
  - simpl. apply cle_del. auto.
Qed.

(** The piece that produces the first character [c] of [c :: u], when [y] is
    what is left of the first string. *)
Inductive produce (a : algorithm) : nat -> str -> char -> str -> Prop :=
| pr_equal : forall m y c u, cost_le a m y u -> produce a m (c :: y) c u
| pr_insert : forall m y c u, cost_le a m y u -> produce a (S m) y c u
| pr_subst : forall m d y c u, cost_le a m y u -> produce a (S m) (d :: y) c u
| pr_swap : forall m d y c u, a = TRANSPOSITION -> cost_le a m y u ->
    produce a (S m) (d :: c :: y) c (d :: u)
| pr_merge : forall m d e y c u, a = MERGE_AND_SPLIT -> cost_le a m y u ->
    produce a (S m) (d :: e :: y) c u
| pr_split : forall m d y c e u, a = MERGE_AND_SPLIT -> cost_le a m y u ->
    produce a (S m) (d :: y) c (e :: u).

(** Some deletions, then the producing piece. *)
Lemma cle_cons_r a c u : forall y m, cost_le a m y (c :: u) ->
  exists t, t <= m /\ t <= length y /\ produce a (m - t) (skipn t y) c u.
Proof.
  induction y as [|d y IH]; intros m H.
  - cle_case H. exists 0; repeat split; try lia. simpl. replace (S x - 0) with (S x) by lia. now constructor.
  - cle_case H.
    + exists 0; repeat split; try lia. rewrite Nat.sub_0_r. now constructor.
    + match goal with Hc : cost_le _ _ _ (_ :: _) |- _ => apply IH in Hc; destruct Hc as (t & Ht & Hl & Hp) end.
      exists (S t); simpl; repeat split; try lia. exact Hp.
    + exists 0; repeat split; try lia. rewrite Nat.sub_0_r. now constructor.
    + exists 0; repeat split; try lia. rewrite Nat.sub_0_r. now constructor.
    + exists 0; repeat split; try lia. rewrite Nat.sub_0_r. now constructor.
    + exists 0; repeat split; try lia. rewrite Nat.sub_0_r. now constructor.
    + exists 0; repeat split; try lia. rewrite Nat.sub_0_r. now constructor.
Qed.

(** [first_at y c j]: [c] occurs in [y] first at index [j]. *)
Definition first_at (y : str) (c : char) (j : nat) : Prop :=
  nth_error y j = Some c /\ forall t, t < j -> nth_error y t <> Some c.

Lemma first_at_exists y c t : nth_error y t = Some c -> exists j, j <= t /\ first_at y c j.
Proof.
  revert t; induction y as [|d y IH]; intros t H; [destruct t; discriminate|].
  destruct (Ascii.ascii_dec d c) as [->|Hd].
  - exists 0; split; [lia|]. split; [reflexivity|]. intros; lia.
  - destruct t as [|t]; simpl in H; [congruence|].
    destruct (IH _ H) as (j & Hj & H1 & H2). exists (S j); split; [lia|]. split; [exact H1|].
    intros [|t'] Ht; simpl; [congruence|]. apply H2; lia.
Qed.

Lemma skipn_skipn_S {A} t j (y : list A) : j <= t ->
  skipn (t - j) (skipn (S j) y) = skipn (S t) y.
Proof.
  intros H. revert t y H; induction j as [|j IH]; intros t y H.
  - rewrite Nat.sub_0_r. destruct y; simpl; [destruct t; auto|auto].
  - destruct t as [|t]; [lia|]. destruct y as [|a y]; [simpl; destruct (t - j); auto|].
    cbn [Nat.sub]. change (skipn (S (S j)) (a :: y)) with (skipn (S j) y). rewrite IH by lia. reflexivity.
Qed.

Lemma nth_skipn {A} t (y : list A) d y' : skipn t y = d :: y' ->
  nth_error y t = Some d /\ skipn (S t) y = y'.
Proof.
  revert y; induction t as [|t IH]; intros y H.
  - simpl in H; subst; auto.
  - destruct y as [|a y]; [discriminate|]. simpl in H. apply IH in H. exact H.
Qed.

Lemma skipn_nil_len {A} t (y : list A) : skipn t y = [] -> length y <= t.
Proof.
  intros H. assert (length (skipn t y) = 0) by now rewrite H. rewrite skipn_length in *. lia.
Qed.

(** Postponing [t] deletions behind an insertion or a substitution. *)
Lemma post_insert a m t y u : t <= m -> cost_le a (m - t) (skipn t y) u -> cost_le a m y u.
Proof. intros Ht H. apply cle_skip in H. eapply cle_weaken; eauto. lia. Qed.

Lemma post_subst a m t d y y' u : t <= m -> skipn t (d :: y) = y' ->
  cost_le a (m - t) (tl y') u -> cost_le a m y u.
Proof.
  intros Ht E H. subst y'. apply post_insert with t; auto.
  replace (skipn t y) with (tl (skipn t (d :: y))); auto.
  clear. revert d y; induction t as [|t IH]; intros d y; [reflexivity|].
  destruct y as [|e y]; [simpl; destruct t; reflexivity|]. exact (IH e y).
Qed.

(** A match after [t] deletions can be replaced by the first match. *)
Lemma first_match a m t c y u : t <= m -> nth_error y t = Some c ->
  cost_le a (m - t) (skipn (S t) y) u ->
  exists j, j <= t /\ first_at y c j /\ cost_le a (m - j) (skipn (S j) y) u.
Proof.
  intros Ht Hn H. destruct (first_at_exists _ _ _ Hn) as (j & Hj & Hf).
  exists j; repeat split; auto; try apply Hf.
  apply post_insert with (t - j); [lia|]. rewrite skipn_skipn_S by lia.
  replace (m - j - (t - j)) with (m - t) by lia. exact H.
Qed.

(** ** Completeness, standard *)
Lemma complete_nil a m c u : cost_le a m [] (c :: u) -> exists m', m = S m' /\ cost_le a m' [] u.
Proof. intros H; cle_case H. eauto. Qed.

Lemma complete_standard m d y c u : d <> c -> cost_le STANDARD m (d :: y) (c :: u) ->
  exists m', m = S m' /\
  (cost_le STANDARD m' (d :: y) u \/ cost_le STANDARD m' y u \/
   exists j, 1 <= j /\ j <= m /\ first_at (d :: y) c j /\ cost_le STANDARD (m - j) (skipn (S j) (d :: y)) u).
Proof.
  intros Hd H. apply cle_cons_r in H. destruct H as (t & Ht & Hl & Hp).
  inversion Hp; subst; try discriminate.
  - (* match *)
    match goal with E : _ :: _ = skipn _ _ |- _ => symmetry in E; apply nth_skipn in E; destruct E as [E1 E2]; subst end.
    match goal with Hc : cost_le _ _ _ _ |- _ => destruct (first_match _ _ _ _ _ _ Ht E1 Hc) as (j & Hj & Hf & Hc') end.
    destruct j as [|j]; [destruct Hf as [Hf _]; simpl in Hf; congruence|].
    exists (m - 1); split; [lia|]. right; right. exists (S j); repeat split; try lia; try apply Hf; auto.
  - exists (m - 1); split; [lia|]. left. apply post_insert with t; [lia|].
    replace (m - 1 - t) with m0 by lia. auto.
  - exists (m - 1); split; [lia|]. right; left.
    eapply post_subst with (t := t); [lia|symmetry; eassumption|]. simpl.
    replace (m - 1 - t) with m0 by lia. auto.
Qed.

(** ** Completeness, transposition *)
Lemma complete_transposition m d y c u : d <> c -> cost_le TRANSPOSITION m (d :: y) (c :: u) ->
  exists m', m = S m' /\
  (cost_le TRANSPOSITION m' (d :: y) u \/ cost_le TRANSPOSITION m' y u \/
   (exists y' u', y = c :: y' /\ u = d :: u' /\ cost_le TRANSPOSITION m' y' u') \/
   exists j, 1 <= j /\ j <= m /\ first_at (d :: y) c j /\ cost_le TRANSPOSITION (m - j) (skipn (S j) (d :: y)) u).
Proof.
  intros Hd H. apply cle_cons_r in H. destruct H as (t & Ht & Hl & Hp).
  inversion Hp; subst; try discriminate.
  - match goal with E : _ :: _ = skipn _ _ |- _ => symmetry in E; apply nth_skipn in E; destruct E as [E1 E2]; subst end.
    match goal with Hc : cost_le _ _ _ _ |- _ => destruct (first_match _ _ _ _ _ _ Ht E1 Hc) as (j & Hj & Hf & Hc') end.
    destruct j as [|j]; [destruct Hf as [Hf _]; simpl in Hf; congruence|].
    exists (m - 1); split; [lia|]. do 3 right. exists (S j); repeat split; try lia; try apply Hf; auto.
  - exists (m - 1); split; [lia|]. left. apply post_insert with t; [lia|].
    replace (m - 1 - t) with m0 by lia. auto.
  - exists (m - 1); split; [lia|]. right; left.
    eapply post_subst with (t := t); [lia|symmetry; eassumption|]. simpl.
    replace (m - 1 - t) with m0 by lia. auto.
  - (* swap after t deletions *)
    exists (m - 1); split; [lia|].
    destruct t as [|t].
    + simpl in *. match goal with E : _ :: _ :: _ = _ :: _ |- _ => injection E as <- <- end.
      right; right; left. exists y0, u0; repeat split; auto. replace (m - 1) with m0 by lia. auto.
    + (* substitute the first deleted character, keep the rest, match, delete c *)
      right; left. simpl in *.
      apply post_insert with t; [lia|].
      match goal with E : _ = skipn t y |- _ => rewrite <- E end.
      apply cle_eq. replace (m - 1 - t) with (S m0) by lia. now apply cle_del.
Qed.

(** ** Completeness, merge and split *)
Lemma complete_merge_and_split m d y c u : d <> c -> cost_le MERGE_AND_SPLIT m (d :: y) (c :: u) ->
  exists m', m = S m' /\
  (cost_le MERGE_AND_SPLIT m' (d :: y) u \/ cost_le MERGE_AND_SPLIT m' y u \/
   (exists e u', u = e :: u' /\ cost_le MERGE_AND_SPLIT m' y u') \/
   (exists e y', y = e :: y' /\ cost_le MERGE_AND_SPLIT m' y' u)).
Proof.
  intros Hd H. apply cle_cons_r in H. destruct H as (t & Ht & Hl & Hp).
  inversion Hp; subst; try discriminate.
  - (* match after t deletions: merge the first two instead *)
    destruct t as [|t]; simpl in *; [congruence|].
    destruct y as [|e y]; [destruct t; discriminate|].
    exists (m - 1); split; [lia|]. do 3 right. exists e, y; split; auto.
    match goal with E : _ :: _ = skipn _ _ |- _ => symmetry in E; apply nth_skipn in E; destruct E as [E1 E2] end.
    simpl in E2. apply post_insert with t; [lia|]. rewrite E2. eapply cle_weaken; eauto; lia.
  - exists (m - 1); split; [lia|]. left. apply post_insert with t; [lia|].
    replace (m - 1 - t) with m0 by lia. auto.
  - exists (m - 1); split; [lia|]. right; left.
    eapply post_subst with (t := t); [lia|symmetry; eassumption|]. simpl.
    replace (m - 1 - t) with m0 by lia. auto.
  - (* merge after t deletions *)
    match goal with E : _ :: _ :: _ = skipn _ _ |- _ => rename E into Es end.
    destruct y as [|e' y].
    { destruct t as [|[|t]]; simpl in Es; discriminate. }
    exists (m - 1); split; [lia|]. do 3 right. exists e', y; split; auto.
    apply post_insert with t; [lia|].
    symmetry in Es; apply nth_skipn in Es; destruct Es as [_ Es]. simpl in Es.
    apply nth_skipn in Es; destruct Es as [_ Es]. simpl in Es.
    rewrite Es. eapply cle_weaken; eauto; lia.
  - (* split after t deletions *)
    exists (m - 1); split; [lia|].
    destruct t as [|t]; simpl in *.
    + match goal with E : _ :: _ = _ :: _ |- _ => injection E as <- <- end.
      right; right; left. exists e, u0; split; auto. replace (m - 1) with m0 by lia. auto.
    + right; left. apply post_insert with t; [lia|].
      match goal with E : _ = skipn t y |- _ => rewrite <- E end.
      replace (m - 1 - t) with (S m0) by lia. now apply cle_sub.
Qed.
