(** * unsubsume and subsumes *)
From Verif Require Import Base Spec SpecTransducer AlignProofs ConsumeProofs TransProofs StateProofs.
Local Open Scope nat_scope.

(** ** unsubsume on states ordered by ascending errors *)
Definition asc_errors (l : state) : Prop := StronglySorted (fun p q => (ne p <= ne q)%N) l.

Definition beaten (alg : algorithm) (n : N) (o p : position) : bool :=
  (ne o <? ne p)%N && subsumes alg o p n.

Lemma skip_remove_asc alg n o l : asc_errors l -> skip_remove alg n o l = filter (fun p => negb (beaten alg n o p)) l.
Proof.
  induction l as [|p l IH]; intros H; [reflexivity|]. inversion H as [|? ? Hs Hf]; subst.
  cbn [skip_remove]. destruct (N.ltb_spec (ne o) (ne p)) as [L|L].
  - apply filter_ext_in. intros q Hq. unfold beaten.
    assert (ne o < ne q)%N.
    { destruct Hq as [<-|Hq]; auto. rewrite Forall_forall in Hf. apply Hf in Hq. lia. }
    destruct (N.ltb_spec (ne o) (ne q)); [reflexivity|lia].
  - cbn [filter]. unfold beaten at 1. destruct (N.ltb_spec (ne o) (ne p)); [lia|]. cbn [andb negb].
    now rewrite IH.
Qed.

Lemma asc_filter f l : asc_errors l -> asc_errors (filter f l).
Proof.
  induction 1 as [|p l Hs IH Hf]; simpl; [constructor|].
  destruct (f p); auto. constructor; auto.
  rewrite Forall_forall in *. intros q Hq. apply filter_In in Hq. apply Hf; tauto.
Qed.

Lemma filter_length_le' {A} (f : A -> bool) l : length (filter f l) <= length l.
Proof. induction l as [|a l IH]; simpl; auto. destruct (f a); simpl; lia. Qed.

Lemma filter_filter {A} (f g : A -> bool) l : filter g (filter f l) = filter (fun a => f a && g a) l.
Proof. induction l as [|a l IH]; simpl; auto. destruct (f a); simpl; auto. destruct (g a); simpl; congruence. Qed.

Lemma unsubsume_steps_asc alg n : forall k l, length l <= k -> asc_errors l ->
  exists keep, unsubsume_steps k alg n l = filter keep l /\
    forall p, In p l -> (keep p = false <-> exists q, In q l /\ keep q = true /\ beaten alg n q p = true).
Proof.
  induction k as [|k IH]; intros l Hl Ha.
  - destruct l; [|simpl in Hl; lia]. exists (fun _ => true). split; auto. intros p [].
  - destruct l as [|o l]; [exists (fun _ => true); split; auto; intros p []|].
    inversion Ha as [|? ? Hs Hf]; subst. cbn [unsubsume_steps]. rewrite skip_remove_asc by auto.
    set (f := fun p => negb (beaten alg n o p)).
    destruct (IH (filter f l)) as (keep & Hk & Hkeep).
    { simpl in Hl. pose proof (filter_length_le' f l). lia. } { now apply asc_filter. }
    rewrite Hk.
    assert (Hlow : forall q p, beaten alg n q p = true -> (ne q < ne p)%N).
    { intros q p Hq. unfold beaten in Hq. lia. }
    rewrite Forall_forall in Hf.
    assert (Hko : forall p, In p l -> (ne p <= ne o)%N -> f p = true /\ keep p = true).
    { intros p Hp Hle. assert (Hfp : f p = true).
      { unfold f, beaten. destruct (N.ltb_spec (ne o) (ne p)); [lia|reflexivity]. }
      split; auto. destruct (keep p) eqn:E; auto. exfalso.
      apply Hkeep in E; [|apply filter_In; auto]. destruct E as (q & Hq & _ & Hb).
      apply filter_In in Hq. destruct Hq as [Hq _]. apply Hf in Hq. apply Hlow in Hb. lia. }
    exists (fun p => (ne p <=? ne o)%N || f p && keep p). split.
    + cbn [filter]. rewrite N.leb_refl. cbn [orb]. f_equal.
      rewrite filter_filter. apply filter_ext_in. intros p Hp.
      destruct (N.leb_spec (ne p) (ne o)) as [L|L]; cbn [orb]; auto.
      destruct (Hko p Hp L) as [-> ->]; auto.
    + intros p Hp. split.
      * intros H. apply Bool.orb_false_iff in H. destruct H as [H1 H2].
        destruct (f p) eqn:Ef.
        { cbn [andb] in H2. destruct Hp as [<-|Hp]; [apply N.leb_gt in H1; lia|].
          apply Hkeep in H2; [|apply filter_In; auto]. destruct H2 as (q & Hq & Hq1 & Hq2).
          apply filter_In in Hq. destruct Hq as [Hq Hfq]. exists q; repeat split; simpl; auto.
          rewrite Hfq, Hq1. now rewrite Bool.orb_true_r. }
        { exists o; repeat split; simpl; auto.
          - rewrite N.leb_refl; auto.
          - unfold f in Ef. destruct (beaten alg n o p); auto. }
      * intros (q & Hq & Hk1 & Hb). pose proof (Hlow _ _ Hb) as Hlt.
        assert (Hoq : (ne o <= ne q)%N). { destruct Hq as [<-|Hq]; [lia|]. now apply Hf. }
        destruct (N.leb_spec (ne p) (ne o)); [lia|]. cbn [orb].
        destruct Hp as [<-|Hp]; [lia|].
        destruct (f p) eqn:Ef; cbn [andb]; auto.
        apply Hkeep; [apply filter_In; auto|].
        destruct Hq as [<-|Hq].
        { exfalso. unfold f in Ef. rewrite Hb in Ef. discriminate. }
        destruct (N.leb_spec (ne q) (ne o)) as [L|L]; cbn [orb] in Hk1.
        { destruct (Hko q Hq L). exists q; repeat split; auto. apply filter_In; auto. }
        { apply Bool.andb_true_iff in Hk1. destruct Hk1. exists q; repeat split; auto. apply filter_In; auto. }
Qed.

Theorem unsubsume_asc alg n l : asc_errors l ->
  exists keep, unsubsume alg n l = filter keep l /\
    forall p, In p l -> (keep p = false <->
      exists q, In q l /\ keep q = true /\ (ne q < ne p)%N /\ subsumes alg q p n = true).
Proof.
  intros H. destruct (unsubsume_steps_asc alg n (length l) l) as (keep & H1 & H2); auto.
  exists keep; split; auto. intros p Hp. rewrite H2 by auto. unfold beaten. split.
  - intros (q & Hq & Hk & Hb). exists q; repeat split; auto; lia.
  - intros (q & Hq & Hk & Hb & Hs). exists q; repeat split; auto. rewrite Hs, Bool.andb_true_r. lia.
Qed.

(** ** subsumes *)
Lemma cle_drop_front a t : forall m y u, cost_le a m y u -> cost_le a (t + m) (skipn t y) u.
Proof.
  induction t as [|t IH]; intros m y u H; [exact H|].
  destruct y as [|d y]; cbn [skipn].
  - eapply cle_weaken; eauto; lia.
  - apply cle_drop_l in H. apply IH in H. eapply cle_weaken; eauto; lia.
Qed.

(** moving the index costs at most its distance *)
Lemma cle_shift a m x i j u : cost_le a m (skipn j x) u ->
  cost_le a (m + (j - i) + (i - j)) (skipn i x) u.
Proof.
  intros H. destruct (Nat.le_gt_cases i j) as [L|L].
  - replace j with (i + (j - i)) in H by lia. rewrite <- skipn_plus in H.
    apply cle_skip in H. eapply cle_weaken; eauto; lia.
  - apply (cle_drop_front a (i - j)) in H. rewrite skipn_plus in H. replace (j + (i - j)) with i in H by lia.
    eapply cle_weaken; eauto; lia.
Qed.

Lemma abs_diff_spec i j : (i < W)%N -> (j < W)%N -> N.to_nat (abs_diff i j) = (N.to_nat j - N.to_nat i) + (N.to_nat i - N.to_nat j).
Proof.
  intros Hi Hj. unfold abs_diff. destruct (N.ltb_spec i j); rewrite wsub_small by lia; lia.
Qed.

Lemma wsub_lt a b : (a < W)%N -> (b < W)%N -> (a < b)%N -> wsub a b = (W - (b - a))%N.
Proof. intros. unfold wsub. rewrite N.mod_small; unfold W in *; lia. Qed.

Lemma diff_ok (i e j f : N) : (i < W)%N -> (e < W)%N -> (j < W)%N -> (f < W)%N -> (e < f)%N ->
  (abs_diff i j <=? wsub f e)%N = true ->
  (N.to_nat j - N.to_nat i) + (N.to_nat i - N.to_nat j) <= N.to_nat f - N.to_nat e.
Proof.
  intros Hi He Hj Hf L H. rewrite <- abs_diff_spec by auto. rewrite wsub_small in H by lia. lia.
Qed.

(** both ordinary: inclusion for every algorithm *)
Lemma subsumes_ordinary alg x n l r u nn : fits l -> fits r ->
  flag alg l = false -> flag alg r = false -> (ne l < ne r)%N ->
  subsumes alg l r nn = true -> accepts alg x n r u -> accepts alg x n l u.
Proof.
  intros [L1 L2] [R1 R2] Fl Fr Hlt Hs. unfold accepts. rewrite Fl, Fr. intros [H1 H2].
  split; [lia|].
  assert (Hd : (N.to_nat (ti r) - N.to_nat (ti l)) + (N.to_nat (ti l) - N.to_nat (ti r))
               <= N.to_nat (ne r) - N.to_nat (ne l)).
  { apply diff_ok; auto. destruct alg; unfold subsumes, flag in *; auto.
    - rewrite Fl in Hs. auto.
    - rewrite Fl in Hs. auto. }
  apply (cle_shift alg _ x (N.to_nat (ti l))) in H2. eapply cle_weaken; eauto. lia.
Qed.

(** both special: inclusion as well, if lhs is inside the query *)
Lemma subsumes_special_both alg x n l r u nn : fits l -> fits r ->
  flag alg l = true -> flag alg r = true -> (ne l < ne r)%N -> N.to_nat (ti l) < length x ->
  subsumes alg l r nn = true -> accepts alg x n r u -> accepts alg x n l u.
Proof.
  intros [L1 L2] [R1 R2] Fl Fr Hlt Hin Hs. unfold accepts. rewrite Fl, Fr. intros [H1 H2].
  split; [lia|]. destruct alg; [discriminate| |].
  - unfold subsumes, flag in *. rewrite Fl in Hs. apply N.eqb_eq in Hs. rewrite Hs.
    destruct H2 as (c1 & c2 & rest & u' & E1 & E2 & H2). exists c1, c2, rest, u'. repeat split; auto.
    eapply cle_weaken; eauto. lia.
  - destruct H2 as (c1 & rest & c & u' & E1 & E2 & H2).
    destruct (skip_cons x (N.to_nat (ti l)) ltac:(lia)) as (d & y & Ey & Ey' & _).
    exists d, y, c, u'. repeat split; auto.
    apply nth_skipn in E1. destruct E1 as [_ E1]. rewrite <- E1 in H2. rewrite <- Ey'.
    apply (cle_shift MERGE_AND_SPLIT _ x (S (N.to_nat (ti l)))) in H2. eapply cle_weaken; eauto.
    assert (Hd : (N.to_nat (ti r) - N.to_nat (ti l)) + (N.to_nat (ti l) - N.to_nat (ti r))
               <= N.to_nat (ne r) - N.to_nat (ne l)).
    { apply diff_ok; auto. unfold subsumes, flag in *. rewrite Fl in Hs. exact Hs. }
    lia.
Qed.

(** merge and split: ordinary lhs, special rhs *)
Lemma subsumes_split x n l r u nn : fits l -> fits r ->
  sp l = false -> sp r = true -> (ne l < ne r)%N ->
  subsumes MERGE_AND_SPLIT l r nn = true -> accepts MERGE_AND_SPLIT x n r u -> accepts MERGE_AND_SPLIT x n l u.
Proof.
  intros [L1 L2] [R1 R2] Fl Fr Hlt Hs. unfold accepts, flag. rewrite Fl, Fr. intros [H1 H2].
  split; [lia|].
  assert (Hd : (N.to_nat (ti r) - N.to_nat (ti l)) + (N.to_nat (ti l) - N.to_nat (ti r))
               <= N.to_nat (ne r) - N.to_nat (ne l)).
  { apply diff_ok; auto. unfold subsumes in *. rewrite Fl in Hs. exact Hs. }
  destruct H2 as (c1 & rest & c & u' & E1 & -> & H2).
  set (i := N.to_nat (ti l)) in *. set (j := N.to_nat (ti r)) in *.
  assert (E1' := E1). apply nth_skipn in E1'. destruct E1' as [_ E2].
  destruct (Nat.lt_trichotomy i j) as [L|[L|L]].
  - (* delete j - i - 1 characters, then merge *)
    destruct (skip_cons x (j - 1)) as (d & y & Ey & Ey' & _).
    { assert (j < length x).
      { apply nth_error_Some. apply nth_skipn in E1. destruct E1; congruence. } lia. }
    replace (S (j - 1)) with j in Ey' by lia. rewrite E1 in Ey'; subst y.
    replace (j - 1) with (i + (j - 1 - i)) in Ey by lia. rewrite <- skipn_plus in Ey.
    apply cle_weaken with ((j - 1 - i) + S (n - N.to_nat (ne r))); [|lia].
    apply cle_skip. rewrite Ey. now apply cle_mrg.
  - rewrite L, E1. apply cle_weaken with (S (n - N.to_nat (ne r))); [|lia]. now apply cle_sub.
  - rewrite <- E2 in H2. apply (cle_shift MERGE_AND_SPLIT _ x i) in H2.
    apply cle_ins with (c := c) in H2. eapply cle_weaken; eauto. lia.
Qed.

(** fewer errors on the right: the difference wraps *)
Lemma subsumes_wraps l r nn : fits l -> fits r -> (ne r < ne l)%N ->
  (subsumes STANDARD l r nn = true <-> (Z.abs (Z.of_N (ti l) - Z.of_N (ti r)) <= 2 ^ 64 - (Z.of_N (ne l) - Z.of_N (ne r)))%Z).
Proof.
  intros [L1 L2] [R1 R2] H. unfold subsumes. rewrite wsub_lt by auto.
  pose proof (abs_diff_spec (ti l) (ti r) L1 R1). change (2 ^ 64)%Z with 18446744073709551616%Z.
  unfold W in *. lia.
Qed.

(** Alignments and lengths, for the converse. *)
Lemma aligned_length alg m v w : aligned alg m v w -> length v <= length w + m /\ length w <= length v + m.
Proof. induction 1; cbn [length]; lia. Qed.

Lemma aligned_refl alg v : aligned alg 0 v v.
Proof. induction v; constructor; auto. Qed.

Lemma aligned_tail alg v k c : aligned alg k v (v ++ repeat c k).
Proof.
  induction v as [|a v IH]; cbn [app].
  - induction k as [|k IH]; cbn [repeat]; constructor; auto.
  - apply al_equal. exact IH.
Qed.

Lemma aligned_drop alg k c : forall v, aligned alg k (repeat c k ++ v) v.
Proof. induction k as [|k IH]; intros v; cbn [repeat app]; [apply aligned_refl|]. apply al_delete, IH. Qed.

Lemma skipn_repeat {A} (c : A) k m : skipn k (repeat c m) = repeat c (m - k).
Proof. revert m. induction k as [|k IH]; intros [|m]; cbn; auto. Qed.
