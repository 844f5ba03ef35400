(** * Alignments and edit scripts: the two agree (except for TRANSPOSITION) and
    the least cost is computed by a plain recursive function [dst]. *)
From Verif Require Import Base Spec.

#[export] Hint Constructors aligned : al.

Ltac inv H := inversion H; subst; clear H.

(** [cost_le a n v w]: some alignment costs at most [n]. *)
Definition cost_le (a : algorithm) (n : nat) (v w : str) : Prop :=
  exists m, m <= n /\ aligned a m v w.

Lemma cle_intro a n v w : aligned a n v w -> cost_le a n v w.
Proof. exists n; auto. Qed.

Lemma cle_weaken a n m v w : cost_le a n v w -> n <= m -> cost_le a m v w.
Proof. intros (k & Hk & H) Hm; exists k; split; [lia|auto]. Qed.

Lemma cle_nil a n : cost_le a n [] [].
Proof. exists 0; split; [lia|constructor]. Qed.
Lemma cle_eq a n c v w : cost_le a n v w -> cost_le a n (c :: v) (c :: w).
Proof. intros (k & Hk & H); exists k; split; auto with al. Qed.
Lemma cle_del a n c v w : cost_le a n v w -> cost_le a (S n) (c :: v) w.
Proof. intros (k & Hk & H); exists (S k); split; auto with al; lia. Qed.
Lemma cle_ins a n c v w : cost_le a n v w -> cost_le a (S n) v (c :: w).
Proof. intros (k & Hk & H); exists (S k); split; auto with al; lia. Qed.
Lemma cle_sub a n c d v w : cost_le a n v w -> cost_le a (S n) (c :: v) (d :: w).
Proof. intros (k & Hk & H); exists (S k); split; auto with al; lia. Qed.
Lemma cle_tr a n c d v w : a = TRANSPOSITION -> cost_le a n v w ->
  cost_le a (S n) (c :: d :: v) (d :: c :: w).
Proof. intros E (k & Hk & H); exists (S k); split; auto with al; lia. Qed.
Lemma cle_mrg a n c d e v w : a = MERGE_AND_SPLIT -> cost_le a n v w ->
  cost_le a (S n) (c :: d :: v) (e :: w).
Proof. intros E (k & Hk & H); exists (S k); split; auto with al; lia. Qed.
Lemma cle_spl a n c d e v w : a = MERGE_AND_SPLIT -> cost_le a n v w ->
  cost_le a (S n) (c :: v) (d :: e :: w).
Proof. intros E (k & Hk & H); exists (S k); split; auto with al; lia. Qed.

#[export] Hint Resolve cle_intro cle_nil cle_eq cle_del cle_ins cle_sub cle_tr cle_mrg cle_spl : cle.

(** Inversion of [cost_le] on its last step. *)
Lemma cle_inv a n v w : cost_le a n v w ->
  (v = [] /\ w = []) \/
  (exists c v' w', v = c :: v' /\ w = c :: w' /\ cost_le a n v' w') \/
  (exists m c v', n = S m /\ v = c :: v' /\ cost_le a m v' w) \/
  (exists m c w', n = S m /\ w = c :: w' /\ cost_le a m v w') \/
  (exists m c d v' w', n = S m /\ v = c :: v' /\ w = d :: w' /\ cost_le a m v' w') \/
  (exists m c d v' w', a = TRANSPOSITION /\ n = S m /\ v = c :: d :: v' /\ w = d :: c :: w' /\ cost_le a m v' w') \/
  (exists m c d e v' w', a = MERGE_AND_SPLIT /\ n = S m /\ v = c :: d :: v' /\ w = e :: w' /\ cost_le a m v' w') \/
  (exists m c d e v' w', a = MERGE_AND_SPLIT /\ n = S m /\ v = c :: v' /\ w = d :: e :: w' /\ cost_le a m v' w').
Proof.
  intros (k & Hk & H); inv H.
  - left; auto.
  - right; left; do 3 eexists; repeat split; eauto. exists k; auto.
  - do 2 right; left; destruct n as [|m]; [lia|]; do 3 eexists; repeat split; eauto. exists n0; split; [lia|auto].
  - do 3 right; left; destruct n as [|m]; [lia|]; do 3 eexists; repeat split; eauto. exists n0; split; [lia|auto].
  - do 4 right; left; destruct n as [|m]; [lia|]; do 5 eexists; repeat split; eauto. exists n0; split; [lia|auto].
  - do 5 right; left; destruct n as [|m]; [lia|]; do 5 eexists; repeat split; eauto. exists n0; split; [lia|auto].
  - do 6 right; left; destruct n as [|m]; [lia|]; do 6 eexists; repeat split; eauto. exists n0; split; [lia|auto].
  - do 7 right; destruct n as [|m]; [lia|]; do 6 eexists; repeat split; eauto. exists n0; split; [lia|auto].
Qed.

Ltac cle_case H :=
  apply cle_inv in H;
  destruct H as [[? ?]|[(? & ? & ? & ? & ? & ?)|[(? & ? & ? & ? & ? & ?)|[(? & ? & ? & ? & ? & ?)|
    [(? & ? & ? & ? & ? & ? & ? & ? & ?)|[(? & ? & ? & ? & ? & ? & ? & ? & ? & ?)|
    [(? & ? & ? & ? & ? & ? & ? & ? & ? & ? & ?)|(? & ? & ? & ? & ? & ? & ? & ? & ? & ? & ?)]]]]]]];
  subst; try discriminate;
  repeat match goal with E : _ :: _ = _ :: _ |- _ => injection E as; subst end.

(** ** Elementary facts *)
Lemma aligned_sym a n v w : aligned a n v w -> aligned a n w v.
Proof. induction 1; auto with al. Qed.

Lemma cle_sym a n v w : cost_le a n v w -> cost_le a n w v.
Proof. intros (k & Hk & H); exists k; split; auto using aligned_sym. Qed.

Lemma aligned_refl a v : aligned a 0 v v.
Proof. induction v; auto with al. Qed.

Lemma aligned_0 a v w : aligned a 0 v w -> v = w.
Proof.
  remember 0 as n; intros H; revert Heqn.
  induction H; intros E; try discriminate; auto. now rewrite IHaligned.
Qed.

Lemma aligned_nil_l a w : aligned a (length w) [] w.
Proof. induction w; simpl; auto with al. Qed.

Lemma aligned_nil_l_inv a n w : aligned a n [] w -> length w = n.
Proof.
  remember [] as v; intros H; revert Heqv; induction H; intros E; try discriminate; auto.
  simpl. now rewrite IHaligned.
Qed.

Lemma aligned_len a n v w : aligned a n v w -> length w <= length v + n /\ length v <= length w + n.
Proof. induction 1; simpl in *; lia. Qed.

Lemma cle_len a n v w : cost_le a n v w -> length w <= length v + n /\ length v <= length w + n.
Proof. intros (k & Hk & H); apply aligned_len in H; lia. Qed.

Lemma cle_nil_l a n w : cost_le a n [] w <-> length w <= n.
Proof.
  split.
  - intros (k & Hk & H); apply aligned_nil_l_inv in H; lia.
  - intros H; exists (length w); split; [lia|apply aligned_nil_l].
Qed.

Lemma cle_nil_r a n v : cost_le a n v [] <-> length v <= n.
Proof.
  rewrite <- (cle_nil_l a n v). split; apply cle_sym.
Qed.

Lemma aligned_app a n m v w v' w' : aligned a n v w -> aligned a m v' w' ->
  aligned a (n + m) (v ++ v') (w ++ w').
Proof. intros H H'; induction H; simpl; auto with al. Qed.

(** ** Dropping a head character costs at most one *)
Lemma cle_drop_r a v w : forall n c, cost_le a n v (c :: w) -> cost_le a (S n) v w.
Proof.
  induction v as [|b v IH]; intros n c H.
  - rewrite cle_nil_l in *; simpl in *; lia.
  - cle_case H; eauto with cle; try (eapply cle_weaken; [eauto 6 with cle | lia]).
Qed.

Lemma cle_drop_l a n c v w : cost_le a n (c :: v) w -> cost_le a (S n) v w.
Proof. intros H; apply cle_sym; apply cle_drop_r with c; apply cle_sym; exact H. Qed.

(** ** Equal leading characters may always be matched *)
Lemma cle_head a n c v w : cost_le a n (c :: v) (c :: w) <-> cost_le a n v w.
Proof.
  split; [|auto with cle]. intros H.
  cle_case H; eauto using cle_drop_l, cle_drop_r with cle.
  all: try (eapply cle_weaken; [eauto 6 with cle | lia]).
Qed.

Lemma cle_app_l a n u v w : cost_le a n (u ++ v) (u ++ w) <-> cost_le a n v w.
Proof. induction u as [|c u IH]; simpl; [tauto|]. rewrite cle_head. exact IH. Qed.

(** ** One operation changes the cost to any third string by at most one *)
Ltac fin := first [ eassumption
  | solve [eauto 3 with cle]
  | solve [eauto 6 using cle_drop_l, cle_drop_r with cle]
  | solve [eapply cle_weaken; [eauto 6 using cle_drop_l, cle_drop_r with cle | lia]] ].

Lemma lip_sub a c d v w : forall n, cost_le a n (c :: v) w -> cost_le a (S n) (d :: v) w.
Proof.
  induction w as [|e w IH]; intros n H; cle_case H; try fin.
  Unshelve. all: assumption.
Qed.

Lemma lip_merge a c d e v w : a = MERGE_AND_SPLIT ->
  forall n, cost_le a n (e :: v) w -> cost_le a (S n) (c :: d :: v) w.
Proof.
  intros Ea; induction w as [|f w IH]; intros n H; cle_case H; try fin.
  Unshelve. all: assumption.
Qed.

(** the second half of a split character, after its first half [d] was matched *)
Lemma lip_split_tail a c e v w x : a = MERGE_AND_SPLIT ->
  forall n, cost_le a n (e :: v) w -> cost_le a (S n) (c :: v) (x :: w).
Proof.
  intros Ea n H; cle_case H; try fin.
  Unshelve. all: assumption.
Qed.

Lemma lip_split a c d e v w : a = MERGE_AND_SPLIT ->
  forall n, cost_le a n (d :: e :: v) w -> cost_le a (S n) (c :: v) w.
Proof.
  intros Ea; induction w as [|f w IH]; intros n H; cle_case H; try fin.
  all: try (eapply lip_split_tail; eauto; fail).
  all: try (eapply cle_weaken; [eapply lip_split_tail; eauto | lia]).
  all: try (eapply cle_weaken; [eapply lip_sub; eauto | lia]).
  Unshelve. all: assumption.
Qed.

(** An operation at the front of a string. *)
Inductive head_op (a : algorithm) : str -> str -> Prop :=
| ho_ins : forall s c, head_op a s (c :: s)
| ho_del : forall s c, head_op a (c :: s) s
| ho_sub : forall s c d, head_op a (c :: s) (d :: s)
| ho_mrg : forall s c d e, a = MERGE_AND_SPLIT -> head_op a (c :: d :: s) (e :: s)
| ho_spl : forall s c d e, a = MERGE_AND_SPLIT -> head_op a (c :: s) (d :: e :: s).

Lemma head_op_of a x x' : a <> TRANSPOSITION -> edit_op a x x' ->
  exists p s s', x = p ++ s /\ x' = p ++ s' /\ head_op a s s'.
Proof.
  intros Ha H; inv H; try contradiction; do 3 eexists; repeat split; eauto using head_op.
Qed.

Lemma lip_head a s s' w : head_op a s s' -> forall n, cost_le a n s' w -> cost_le a (S n) s w.
Proof.
  intros Ho n H; inv Ho; eauto using cle_drop_l, lip_sub, lip_merge, lip_split with cle.
Qed.

Lemma lip_op_aux a s s' : a <> TRANSPOSITION -> head_op a s s' ->
  forall k p w, length p + length w <= k ->
  forall n, cost_le a n (p ++ s') w -> cost_le a (S n) (p ++ s) w.
Proof.
  intros Ha Ho; induction k as [|k IH]; intros p w Hk n H.
  - destruct p; [|simpl in Hk; lia]. eapply lip_head; eauto.
  - destruct p as [|c p]; [eapply lip_head; eauto|].
    simpl in H; cle_case H; simpl in *; try contradiction.
    + (* equal *) apply cle_eq, IH; [lia|auto].
    + (* delete *) apply cle_del, IH; [lia|auto].
    + (* insert *) apply cle_ins. change (c :: p ++ s) with ((c :: p) ++ s).
      apply IH; [simpl; lia|auto].
    + (* substitute *) apply cle_sub, IH; [lia|auto].
    + (* merge *) destruct p as [|b p]; simpl in *.
      * subst s'. inv Ho; try fin.
      * match goal with E : _ :: _ = _ :: _ |- _ => injection E as; subst end.
        apply cle_mrg; auto. apply IH; [lia|auto].
    + (* split *) apply cle_spl, IH; auto; lia.
  Unshelve. all: assumption.
Qed.

Lemma lip_op a x x' w n : a <> TRANSPOSITION -> edit_op a x x' ->
  cost_le a n x' w -> cost_le a (S n) x w.
Proof.
  intros Ha Ho H. destruct (head_op_of _ _ _ Ha Ho) as (p & s & s' & -> & -> & Hh).
  eapply lip_op_aux; eauto.
Qed.

(** ** Scripts *)
Lemma edit_op_cons a c x y : edit_op a x y -> edit_op a (c :: x) (c :: y).
Proof.
  intros H; inv H.
  - apply (op_insert a (c :: p)).
  - apply (op_delete a (c :: p)).
  - apply (op_substitute a (c :: p)).
  - now apply (op_transpose _ (c :: p)).
  - now apply (op_merge _ (c :: p)).
  - now apply (op_split _ (c :: p)).
Qed.

Lemma edits_cons a c n x y : edits a n x y -> edits a n (c :: x) (c :: y).
Proof. induction 1; econstructor; eauto using edit_op_cons. Qed.

Lemma aligned_edits a n v w : aligned a n v w -> edits a n v w.
Proof.
  induction 1.
  - constructor.
  - now apply edits_cons.
  - econstructor; [apply (op_delete a [])|]; auto.
  - econstructor; [apply (op_insert a [])|]; simpl; eauto using edits_cons.
  - econstructor; [apply (op_substitute a [])|]; simpl; eauto using edits_cons.
  - econstructor; [now apply (op_transpose a [])|]; simpl; eauto using edits_cons.
  - econstructor; [now apply (op_merge a [])|]; simpl; eauto using edits_cons.
  - econstructor; [now apply (op_split a [])|]; simpl; eauto using edits_cons.
Qed.

Lemma edits_cost a n v w : a <> TRANSPOSITION -> edits a n v w -> cost_le a n v w.
Proof.
  intros Ha; induction 1 as [v|n u v w Ho _ IH].
  - exists 0; split; auto using aligned_refl.
  - eapply lip_op; eauto.
Qed.

Lemma edits_trans a n m u v w : edits a n u v -> edits a m v w -> edits a (n + m) u w.
Proof. intros H H'; induction H; simpl; auto; econstructor; eauto. Qed.

Lemma edit_op_sym a x y : edit_op a x y -> edit_op a y x.
Proof. intros H; inv H; auto using edit_op. Qed.

Lemma cle_trans a n m u v w : a <> TRANSPOSITION ->
  cost_le a n u v -> cost_le a m v w -> cost_le a (n + m) u w.
Proof.
  intros Ha (k & Hk & H) (l & Hl & H').
  apply cle_weaken with (k + l); [|lia].
  apply edits_cost; auto. eapply edits_trans; apply aligned_edits; eauto.
Qed.

(** ** The least cost as a function *)
Definition min_list (d : nat) (l : list nat) : nat := fold_right Nat.min d l.

Fixpoint dst_fuel (fuel : nat) (a : algorithm) (v w : str) : nat :=
  match fuel with
  | O => 0
  | S f =>
      match v, w with
      | [], _ => length w
      | _, [] => length v
      | c :: v', d :: w' =>
          let rec := dst_fuel f a in
          Nat.min (if ceqb c d then rec v' w' else S (rec v' w'))
         (Nat.min (S (Nat.min (rec v' w) (rec v w')))
          match a with
          | STANDARD => S (rec v' w')
          | TRANSPOSITION =>
              match v', w' with
              | c1 :: v'', d1 :: w'' =>
                  if ceqb c d1 && ceqb c1 d then S (rec v'' w'') else S (rec v' w')
              | _, _ => S (rec v' w')
              end
          | MERGE_AND_SPLIT =>
              Nat.min (match v' with _ :: v'' => S (rec v'' w') | [] => S (rec v' w') end)
                      (match w' with _ :: w'' => S (rec v' w'') | [] => S (rec v' w') end)
          end)
      end
  end.

Definition dst (a : algorithm) (v w : str) : nat := dst_fuel (S (length v + length w)) a v w.

Lemma ceqb_true c d : ceqb c d = true <-> c = d.
Proof. apply Ascii.eqb_eq. Qed.
Lemma ceqb_false c d : ceqb c d = false <-> c <> d.
Proof. apply Ascii.eqb_neq. Qed.
Lemma ceqb_refl c : ceqb c c = true.
Proof. now apply ceqb_true. Qed.

Lemma dst_fuel_attained a f : forall v w, length v + length w < f ->
  aligned a (dst_fuel f a v w) v w.
Proof.
  induction f as [|f IH]; intros v w Hf; [lia|].
  cbn [dst_fuel].
  destruct v as [|c v]; [apply aligned_nil_l|].
  destruct w as [|d w]; [apply aligned_sym, aligned_nil_l|].
  simpl length in Hf.
  assert (Hsub : aligned a (S (dst_fuel f a v w)) (c :: v) (d :: w)).
  { apply al_substitute, IH. lia. }
  assert (Hmin : forall n m, aligned a n (c :: v) (d :: w) -> aligned a m (c :: v) (d :: w) ->
            aligned a (Nat.min n m) (c :: v) (d :: w)).
  { intros n m Hn Hm. destruct (Nat.min_dec n m) as [-> | ->]; auto. }
  apply Hmin; [|apply Hmin].
  - destruct (ceqb c d) eqn:E; [|exact Hsub].
    apply ceqb_true in E; subst. apply al_equal, IH; lia.
  - rewrite Nat.succ_min_distr; apply Hmin.
    + apply al_delete, IH. simpl; lia.
    + apply al_insert, IH. simpl; lia.
  - destruct a.
    + exact Hsub.
    + destruct v as [|c1 v]; [exact Hsub|]. destruct w as [|d1 w]; [exact Hsub|].
      destruct (ceqb c d1 && ceqb c1 d) eqn:E; [|exact Hsub].
      apply andb_prop in E as [E1 E2]; apply ceqb_true in E1, E2; subst.
      apply al_transpose; auto. apply IH; simpl in *; lia.
    + apply Hmin.
      * destruct v as [|c1 v]; [exact Hsub|]. apply al_merge; auto. apply IH; simpl in *; lia.
      * destruct w as [|d1 w]; [exact Hsub|]. apply al_split; auto. apply IH; simpl in *; lia.
Qed.

Lemma dst_fuel_least a f : forall v w n, length v + length w < f ->
  aligned a n v w -> dst_fuel f a v w <= n.
Proof.
  induction f as [|f IH]; intros v w n Hf H; [lia|].
  cbn [dst_fuel].
  destruct v as [|c v].
  { apply aligned_nil_l_inv in H; lia. }
  destruct w as [|d w].
  { apply aligned_sym, aligned_nil_l_inv in H; lia. }
  simpl length in Hf.
  inv H.
  - rewrite ceqb_refl.
    match goal with Ha : aligned _ _ v w |- _ => apply IH in Ha; [lia|lia] end.
  - match goal with Ha : aligned _ _ v (d :: w) |- _ => apply IH in Ha; [lia|simpl;lia] end.
  - match goal with Ha : aligned _ _ (c :: v) w |- _ => apply IH in Ha; [lia|simpl;lia] end.
  - match goal with Ha : aligned _ _ v w |- _ => apply IH in Ha; [|lia] end.
    destruct (ceqb c d); lia.
  - match goal with Ha : aligned _ _ _ _ |- _ => apply IH in Ha; [|simpl in *; lia] end.
    rewrite !ceqb_refl; cbn [andb]. lia.
  - match goal with Ha : aligned _ _ _ _ |- _ => apply IH in Ha; [|simpl in *; lia] end. lia.
  - match goal with Ha : aligned _ _ _ _ |- _ => apply IH in Ha; [|simpl in *; lia] end. lia.
Qed.

Lemma dst_attained a v w : aligned a (dst a v w) v w.
Proof. apply dst_fuel_attained; lia. Qed.

Lemma dst_least a v w n : aligned a n v w -> dst a v w <= n.
Proof. intros H; apply dst_fuel_least; [lia|auto]. Qed.

Lemma dst_le a v w n : dst a v w <= n <-> cost_le a n v w.
Proof.
  split.
  - intros H; exists (dst a v w); split; auto using dst_attained.
  - intros (k & Hk & H); apply dst_least in H; lia.
Qed.

Lemma least_unique P n m : least P n -> least P m -> n = m.
Proof. intros [H1 H2] [H3 H4]; apply Nat.le_antisymm; auto. Qed.

Lemma dst_least_aligned a v w : least (fun n => aligned a n v w) (dst a v w).
Proof. split; auto using dst_attained, dst_least. Qed.

Lemma dst_least_edits a v w : a <> TRANSPOSITION -> least (fun n => edits a n v w) (dst a v w).
Proof.
  intros Ha; split.
  - apply aligned_edits, dst_attained.
  - intros m H. apply dst_le, edits_cost; auto.
Qed.

Lemma dst_edit_distance a v w : edit_distance a v w (dst a v w).
Proof.
  destruct a; simpl; try (apply dst_least_edits; discriminate). apply dst_least_aligned.
Qed.

Lemma edit_distance_dst a v w d : edit_distance a v w d <-> d = dst a v w.
Proof.
  split; [|intros ->; apply dst_edit_distance].
  intros H; pose proof (dst_edit_distance a v w) as H'.
  destruct a; simpl in *; eapply least_unique; eauto.
Qed.

(** ** Laws of [dst] *)
Lemma dst_eq_by a a' v w v' w' :
  (forall n, cost_le a n v w <-> cost_le a' n v' w') -> dst a v w = dst a' v' w'.
Proof.
  intros H. apply Nat.le_antisymm; apply dst_le; apply H; apply dst_le; lia.
Qed.

Lemma dst_nil_l a w : dst a [] w = length w.
Proof. unfold dst; simpl; destruct w; reflexivity. Qed.
Lemma dst_nil_r a v : dst a v [] = length v.
Proof. unfold dst; simpl; destruct v; reflexivity. Qed.

Lemma dst_sym a v w : dst a v w = dst a w v.
Proof. apply dst_eq_by; intros; split; apply cle_sym. Qed.

Lemma dst_refl a v : dst a v v = 0.
Proof.
  pose proof (dst_least _ _ _ _ (aligned_refl a v)). lia.
Qed.

Lemma dst_0 a v w : dst a v w = 0 <-> v = w.
Proof.
  split; [|intros ->; apply dst_refl].
  intros H; pose proof (dst_attained a v w) as H'; rewrite H in H'; eapply aligned_0; eauto.
Qed.

Lemma dst_head a c v w : dst a (c :: v) (c :: w) = dst a v w.
Proof. apply dst_eq_by; intros; apply cle_head. Qed.

Lemma dst_app_l a u v w : dst a (u ++ v) (u ++ w) = dst a v w.
Proof. apply dst_eq_by; intros; apply cle_app_l. Qed.

Lemma dst_triangle a u v w : a <> TRANSPOSITION -> dst a u w <= dst a u v + dst a v w.
Proof.
  intros Ha; apply dst_le; apply cle_trans with v; auto; apply dst_le; lia.
Qed.

(** Reversal, hence common suffixes. *)
Lemma aligned_rev a n v w : aligned a n v w -> aligned a n (rev v) (rev w).
Proof.
  induction 1; simpl.
  - constructor.
  - replace n with (n + 0) by lia. apply aligned_app; auto with al.
  - rewrite <- (app_nil_r (rev w)). replace (S n) with (n + 1) by lia. apply aligned_app; auto with al.
  - rewrite <- (app_nil_r (rev v)). replace (S n) with (n + 1) by lia. apply aligned_app; auto with al.
  - replace (S n) with (n + 1) by lia. apply aligned_app; auto with al.
  - rewrite <- !app_assoc; simpl. replace (S n) with (n + 1) by lia. apply aligned_app; auto with al.
  - rewrite <- !app_assoc; simpl. replace (S n) with (n + 1) by lia. apply aligned_app; auto with al.
  - rewrite <- !app_assoc; simpl. replace (S n) with (n + 1) by lia. apply aligned_app; auto with al.
Qed.

Lemma dst_rev a v w : dst a (rev v) (rev w) = dst a v w.
Proof.
  apply dst_eq_by; intros n; split; intros (k & Hk & H); exists k; split; auto.
  - apply aligned_rev in H. now rewrite !rev_involutive in H.
  - now apply aligned_rev.
Qed.

Lemma dst_app_r a u v w : dst a (v ++ u) (w ++ u) = dst a v w.
Proof.
  rewrite <- dst_rev, !rev_app_distr, dst_app_l. apply dst_rev.
Qed.

(** Bounds. *)
Lemma aligned_std a n v w : aligned STANDARD n v w -> aligned a n v w.
Proof. induction 1; auto with al; discriminate. Qed.

Lemma dst_le_std a v w : dst a v w <= dst STANDARD v w.
Proof. apply dst_least, aligned_std, dst_attained. Qed.

Lemma aligned_to_std a n v w : aligned a n v w -> cost_le STANDARD (2 * n) v w.
Proof.
  induction 1.
  - auto with cle.
  - auto with cle.
  - replace (2 * S n) with (S (S (2 * n))) by lia.
    apply cle_weaken with (S (2 * n)); auto with cle.
  - replace (2 * S n) with (S (S (2 * n))) by lia.
    apply cle_weaken with (S (2 * n)); auto with cle.
  - replace (2 * S n) with (S (S (2 * n))) by lia.
    apply cle_weaken with (S (2 * n)); auto with cle.
  - replace (2 * S n) with (S (S (2 * n))) by lia. auto with cle.
  - replace (2 * S n) with (S (S (2 * n))) by lia. auto with cle.
  - replace (2 * S n) with (S (S (2 * n))) by lia. auto with cle.
Qed.

Lemma dst_std_le a v w : dst STANDARD v w <= 2 * dst a v w.
Proof. apply dst_le. eapply aligned_to_std, dst_attained. Qed.

Lemma dst_max a v w : dst a v w <= Nat.max (length v) (length w).
Proof.
  apply dst_le. revert w; induction v as [|c v IH]; intros w.
  - apply cle_nil_l; simpl; lia.
  - destruct w as [|d w]; [apply cle_nil_r; simpl; lia|].
    simpl. apply cle_sub, IH.
Qed.

Lemma dst_len a v w : length v <= length w + dst a v w /\ length w <= length v + dst a v w.
Proof. pose proof (dst_attained a v w) as H; apply aligned_len in H; lia. Qed.

(** Recurrence with different leading characters: the recursive calls. *)
Lemma dst_pos a c d v w : c <> d -> 0 < dst a (c :: v) (d :: w).
Proof.
  intros Hcd. destruct (dst a (c :: v) (d :: w)) eqn:E; [|lia].
  apply dst_0 in E. congruence.
Qed.
