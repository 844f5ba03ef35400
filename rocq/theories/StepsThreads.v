(** * StepsThreads: threads that take turns, and the memory each of them sees. *)
From Coq Require Import Permutation Relations Wf_nat.
From Verif Require Import Base Spec ModelHash ModelDawg SpecDawg SpecQuery HeapProofs PropsDawg.
From Verif Require Import ModelSteps SpecSteps StepsAlone StepsProofs StepsSession.
Set Implicit Arguments. Unset Strict Implicit.
Local Open Scope nat_scope.

(** ** Runs of one thread are runs with some allocator *)
Lemma lstep_len {A} hs (s s' : action A * heap) : lstep hs s s' -> length (snd s) <= length (snd s').
Proof. intros H. destruct H; cbn [snd]; unfold hset, hdel; cbn [length]; lia. Qed.
Lemma lsteps_len {A} hs (s s' : action A * heap) : lsteps hs s s' -> length (snd s) <= length (snd s').
Proof. induction 1 as [|s s1 s' H1 _ IH]; [lia|]. pose proof (lstep_len H1). lia. Qed.

(** Allocators that agree from now on. *)
Definition agree (al al' : heap -> ptr) (h : heap) : Prop := forall m, length h <= length m -> al m = al' m.

Lemma split_agree {A} al al' hs (p : action A) : forall v, agree al al' (v ++ hs) ->
  split al hs p v = split al' hs p v.
Proof.
  induction p as [x| | |a k IH|a n k IH|n k IH|a k IH]; intros v H; cbn [split]; try reflexivity.
  - destruct (there (v ++ hs) a); cbn; auto.
  - destruct (there v a); [|reflexivity]. apply IH. intros m Hm. apply H. unfold hset, hdel in Hm. cbn [app length] in Hm. lia.
  - rewrite <- (H (v ++ hs)) by lia. apply IH. intros m Hm. apply H. unfold hset, hdel in Hm. cbn [app length] in Hm. lia.
  - destruct (there v a); [|reflexivity]. apply IH. intros m Hm. apply H. unfold hset, hdel in Hm. cbn [app length] in Hm. lia.
Qed.

(** Returning [q] at histories of length [n]. *)
Definition pick (n : nat) (q : ptr) (f : heap -> ptr) (m : heap) : ptr :=
  if (length m =? n) && negb (N.eqb q null) && match hget m q with None => true | Some _ => false end then q else f m.
Lemma pick_sound n q f : allocator f -> allocator (pick n q f).
Proof.
  intros H m. unfold pick. destruct (length m =? n); cbn [andb]; [|apply H].
  destruct (N.eqb_spec q null) as [->|Hq]; cbn [negb andb]; [apply H|].
  destruct (hget m q) eqn:E; [apply H|]. auto.
Qed.
Lemma pick_here m q f : q <> null -> hget m q = None -> pick (length m) q f m = q.
Proof.
  intros N F. unfold pick. rewrite Nat.eqb_refl, F. destruct (N.eqb_spec q null); [contradiction|]. reflexivity.
Qed.
Lemma pick_other m n q f : length m <> n -> pick n q f m = f m.
Proof. intros N. unfold pick. apply Nat.eqb_neq in N. now rewrite N. Qed.

Lemma realised {A} hs (s s' : action A * heap) : lsteps hs s s' ->
  exists al, allocator al /\ split al hs (fst s) (snd s) = split al hs (fst s') (snd s').
Proof.
  induction 1 as [s|s s1 s' H1 Hs IH].
  - exists bump. split; [apply bump_allocator|reflexivity].
  - destruct IH as (al & HA & E). pose proof (lsteps_len Hs) as L. clear Hs.
    inversion H1 as [a k v n T|a n k v n0 T|n k v a Na Fr|a k v n0 T|a k v T|a n k v T|a k v T]; subst; cbn [fst snd] in *.
    + exists al. split; [exact HA|]. rewrite <- E. cbn [split]. now rewrite T.
    + exists al. split; [exact HA|]. rewrite <- E. cbn [split]. now rewrite T.
    + exists (pick (length (v ++ hs)) a al). split; [now apply pick_sound|].
      cbn [split]. rewrite pick_here by assumption.
      assert (Ag : forall m, S (length v) <= length m -> agree (pick (length (v ++ hs)) a al) al (m ++ hs)).
      { intros m Hm m' Hm'. apply pick_other. rewrite !app_length in *. lia. }
      rewrite (@split_agree A _ al hs (k a) (hset v a n)) by (apply Ag; unfold hset; cbn [length]; lia).
      rewrite (@split_agree A _ al hs (fst s') (snd s')) by (apply Ag; unfold hset in L; cbn [snd length] in L; lia). exact E.
    + exists al. split; [exact HA|]. rewrite <- E. cbn [split]. now rewrite T.
    + exists al. split; [exact HA|]. rewrite <- E. cbn [split]. now rewrite T.
    + exists al. split; [exact HA|]. rewrite <- E. cbn [split]. now rewrite T.
    + exists al. split; [exact HA|]. rewrite <- E. cbn [split]. now rewrite T.
Qed.

(** ** Threads *)
Section Threads.
  Context {A : Type}.
  Variable hs : heap.

  (** A thread: the program it started with, what is left of it, its memory. *)
  Record thread := Thread { t_start : action A; t_now : action A; t_mem : heap }.

  (** Programs that do not go wrong alone. *)
  Definition safe (p : action A) : Prop := forall q v, lsteps hs (p, []) (q, v) -> q <> Wrong /\ q <> Spent.

  Definition together (w : heap) (ts ps : list (action A)) (l : list thread) : Prop :=
    map t_start l = ps /\ map t_now l = ts /\
    Forall (fun t => lsteps hs (t_start t, []) (t_now t, t_mem t)) l /\
    fits hs w (map t_mem l).

  Lemma together_start ps : together hs ps ps (map (fun p => Thread p p []) ps).
  Proof.
    split; [rewrite map_map; apply map_id|]. split; [rewrite map_map; apply map_id|]. split.
    - apply Forall_forall. intros t Ht. apply in_map_iff in Ht. destruct Ht as (p & <- & _). apply rt1n_refl.
    - rewrite map_map. cbn [t_mem].
      assert (R : forall i m, nth_error (map (fun _ : action A => @nil (ptr * option node)) ps) i = Some m -> m = []).
      { intros i m H. rewrite nth_error_map in H. destruct (nth_error ps i); [|discriminate]. now injection H as <-. }
      constructor; auto.
      + intros i m H a n. rewrite (R i m H). discriminate.
      + intros i j m m' _ Hi _ a n. rewrite (R i m Hi). discriminate.
      + intros i m H. rewrite (R i m H). intros a [].
  Qed.

  Lemma lsteps_snoc (s s1 s2 : action A * heap) : lsteps hs s s1 -> lstep hs s1 s2 -> lsteps hs s s2.
  Proof.
    intros H H1. apply clos_rt_rt1n. eapply rt_trans; [apply clos_rt1n_rt; exact H|]. now apply rt_step.
  Qed.

  Lemma there_inv h a n : there h a = Some n -> a <> null /\ hget h a = Some n.
  Proof. unfold there. destruct (N.eqb_spec a null); [discriminate|]. auto. Qed.
  Lemma there_intro h a n : a <> null -> hget h a = Some n -> there h a = Some n.
  Proof. intros N G. unfold there. destruct (N.eqb_spec a null); [contradiction|]. exact G. Qed.

  (** The next access of a thread that is safe does in the shared memory what it
      does in the thread's own memory. *)
  Lemma turn_together w ts ps l w' ts' : (forall p, In p ps -> safe p) -> together w ts ps l ->
    turn (w, ts) (w', ts') -> exists l', together w' ts' ps l'.
  Proof.
    intros HS T H. inversion H as [w0 before p after_ p' w0' Ha E1 E2]. subst w0 ts w0' ts'. clear H.
    pose proof T as (Eps & Ets & Ch & F).
    assert (Sp : exists l1 t l2, l = l1 ++ t :: l2 /\ map t_now l1 = before /\ t_now t = p /\ map t_now l2 = after_).
    { clear - Ets. revert l Ets. induction before as [|b before IH]; intros [|t l] Ets; try discriminate.
      - cbn in Ets. injection Ets as <- <-. exists [], t, l. auto.
      - cbn in Ets. injection Ets as <- Ets. destruct (IH l Ets) as (l1 & t' & l2 & -> & <- & <- & <-).
        exists (t :: l1), t', l2. auto. }
    destruct Sp as (l1 & t & l2 & -> & <- & <- & <-). clear Ets.
    assert (Ct : lsteps hs (t_start t, []) (t_now t, t_mem t)).
    { rewrite Forall_forall in Ch. apply Ch. apply in_elt. }
    assert (St : safe (t_start t)). { apply HS. rewrite <- Eps. apply in_map. apply in_elt. }
    (* the thread does not go wrong in its own memory *)
    assert (Sf : forall v, ~ lstep hs (t_now t, t_mem t) (Wrong, v)).
    { intros v Hq. destruct (St Wrong v) as [X _]; [|congruence]. eapply lsteps_snoc; [exact Ct|exact Hq]. }
    assert (K : forall q v', lstep hs (t_now t, t_mem t) (q, v') ->
      fits hs w' (map t_mem l1 ++ v' :: map t_mem l2) ->
      exists l', together w' (map t_now l1 ++ q :: map t_now l2) ps l').
    { intros q v Hq HF. exists (l1 ++ Thread (t_start t) q v :: l2). split; [|split; [|split]].
      - rewrite <- Eps, !map_app. reflexivity.
      - rewrite map_app. reflexivity.
      - apply Forall_app in Ch. destruct Ch as [Ch1 Ch2]. inversion Ch2; subst.
        apply Forall_app. split; [exact Ch1|]. constructor; [|assumption]. cbn [t_start t_now t_mem].
        eapply lsteps_snoc; [exact Ct|exact Hq].
      - rewrite map_app. exact HF. }
    rewrite map_app in F. cbn [map] in F. pose proof (nth_error_here (map t_mem l1) (map t_mem l2) (t_mem t)) as Mi.
    pose proof (f_in F Mi) as Su. pose proof (f_sep F Mi) as Se.
    assert (Own : forall a n, hget (t_mem t) a = Some n -> hget hs a = None /\
      forall j m', j <> length (map t_mem l1) -> nth_error (map t_mem l1 ++ t_mem t :: map t_mem l2) j = Some m' -> hget m' a = None).
    { intros a n G. split.
      - destruct (in_dec N.eq_dec a (map fst (t_mem t))) as [I|I]; [now apply Se|].
        rewrite hget_no_event in G by exact I. discriminate.
      - intros j m' Nj Hj. exact (f_own F (not_eq_sym Nj) Mi Hj G). }
    assert (Up : sub (t_mem t ++ hs) w).
    { intros a n G. rewrite hget_app in G. destruct (existsb _ _); [now apply Su|now apply (f_old F)]. }
    inversion Ha as [a k h n Th E1 E2|a n k h n0 Th E1 E2|n k h a Na Fr E1 E2|a k h n0 Th E1 E2|a k h Th E1 E2|a n k h Th E1 E2
      |a k h Th E1 E2]; subst; symmetry in E1.
    - destruct (there (t_mem t ++ hs) a) as [n'|] eqn:Tl.
      + assert (n' = n) as ->. { pose proof (there_sub Up Tl). congruence. }
        eapply K; [rewrite E1; apply l_look; exact Tl|exact F].
      + exfalso. apply (Sf (t_mem t)). rewrite E1. now apply l_bad_look.
    - destruct (there (t_mem t) a) as [n'|] eqn:Tl.
      + eapply K; [rewrite E1; eapply l_store; exact Tl|]. apply there_inv in Tl. destruct Tl as [_ G].
        destruct (Own a n' G). now apply fits_event.
      + exfalso. apply (Sf (t_mem t)). rewrite E1. now apply l_bad_store.
    - assert (Fr' : hget (t_mem t ++ hs) a = None) by exact (sub_none Up Fr).
      eapply K; [rewrite E1; apply l_make; [exact Na|exact Fr']|]. apply fits_event; [exact F| |].
      + destruct (hget hs a) eqn:G; [|reflexivity]. apply (f_old F) in G. congruence.
      + intros j m' _ Hj. exact (sub_none (f_in F Hj) Fr).
    - destruct (there (t_mem t) a) as [n'|] eqn:Tl.
      + eapply K; [rewrite E1; eapply l_drop; exact Tl|]. apply there_inv in Tl. destruct Tl as [_ G].
        destruct (Own a n' G). now apply fits_event.
      + exfalso. apply (Sf (t_mem t)). rewrite E1. now apply l_bad_drop.
    - exfalso. apply (Sf (t_mem t)). rewrite E1. apply l_bad_look.
      destruct (there (t_mem t ++ hs) a) eqn:Tl; [|reflexivity]. pose proof (there_sub Up Tl). congruence.
    - exfalso. apply (Sf (t_mem t)). rewrite E1. apply l_bad_store.
      destruct (there (t_mem t) a) eqn:Tl; [|reflexivity]. pose proof (there_sub Su Tl). congruence.
    - exfalso. apply (Sf (t_mem t)). rewrite E1. apply l_bad_drop.
      destruct (there (t_mem t) a) eqn:Tl; [|reflexivity]. pose proof (there_sub Su Tl). congruence.
  Qed.

  Lemma turns_together ps s : (forall p, In p ps -> safe p) -> turns (hs, ps) s ->
    exists l, together (fst s) (snd s) ps l.
  Proof.
    intros HS H. remember (hs, ps) as s0 eqn:E0.
    induction H as [s|s s' s'' H1 IH H2]; subst.
    - eexists. apply together_start.
    - destruct (IH eq_refl) as [l T]. destruct s' as [w ts], s'' as [w' ts']. eapply turn_together; eauto.
  Qed.

  Lemma together_safe w ts ps l t : (forall p, In p ps -> safe p) -> together w ts ps l -> In t l ->
    (t_now t <> Wrong /\ t_now t <> Spent) /\ forall v', ~ lstep hs (t_now t, t_mem t) (Wrong, v').
  Proof.
    intros HS (Eps & _ & Ch & _) Ht. rewrite Forall_forall in Ch. specialize (Ch t Ht).
    assert (St : safe (t_start t)). { apply HS. rewrite <- Eps. now apply in_map. }
    split; [exact (St _ _ Ch)|]. intros v Hq. destruct (St Wrong v) as [X _]; [|congruence].
    eapply lsteps_snoc; [exact Ch|exact Hq].
  Qed.

  (** No races. *)
  Lemma modifies_own (p : action A) a v : modifies p a -> (forall v', ~ lstep hs (p, v) (Wrong, v')) ->
    exists n, hget v a = Some n.
  Proof.
    intros M Sf. destruct M as [a n k|a k]; destruct (there v a) as [n'|] eqn:E;
      try (apply there_inv in E; destruct E; eauto; fail); exfalso; apply (Sf v).
    - now apply l_bad_store.
    - now apply l_bad_drop.
  Qed.
  Lemma accesses_there (p : action A) a v : accesses p a -> (forall v', ~ lstep hs (p, v) (Wrong, v')) ->
    exists n, hget (v ++ hs) a = Some n.
  Proof.
    intros M Sf. destruct M as [a k|a n k|a k].
    - destruct (there (v ++ hs) a) as [n'|] eqn:E; [apply there_inv in E; destruct E; eauto|].
      exfalso. apply (Sf v). now apply l_bad_look.
    - destruct (@modifies_own (Store a n k) a v (modifies_store a n k) Sf) as [n' G]. exists n'. now apply hget_some_app.
    - destruct (@modifies_own (Drop a k) a v (modifies_drop a k) Sf) as [n' G]. exists n'. now apply hget_some_app.
  Qed.

  Lemma no_race w ts ps l : (forall p, In p ps -> safe p) -> together w ts ps l -> ~ data_race ts.
  Proof.
    intros HS T (i & j & p & q & a & Nij & Hi & Hj & M & Ac). pose proof T as (_ & <- & _ & F).
    rewrite nth_error_map in Hi, Hj. destruct (nth_error l i) as [t|] eqn:Ei; [|discriminate]. injection Hi as <-.
    destruct (nth_error l j) as [t'|] eqn:Ej; [|discriminate]. injection Hj as <-.
    destruct (together_safe HS T (nth_error_In _ _ Ei)) as [_ S1].
    destruct (together_safe HS T (nth_error_In _ _ Ej)) as [_ S2].
    destruct (modifies_own M S1) as [y L]. destruct (accesses_there Ac S2) as [z G].
    assert (Mi : nth_error (map t_mem l) i = Some (t_mem t)) by now rewrite nth_error_map, Ei.
    assert (Mj : nth_error (map t_mem l) j = Some (t_mem t')) by now rewrite nth_error_map, Ej.
    rewrite hget_app in G. destruct (existsb (N.eqb a) (map fst (t_mem t'))).
    - rewrite (f_own F Nij Mi Mj L) in G. discriminate.
    - assert (I : In a (map fst (t_mem t))).
      { destruct (in_dec N.eq_dec a (map fst (t_mem t))) as [I|I]; [exact I|]. rewrite hget_no_event in L by exact I. discriminate. }
      rewrite (f_sep F Mi I) in G. discriminate.
  Qed.

  (** Every program that is not at its end can go on. *)
  Lemma can_go_on (p : action A) w : p <> Wrong -> p <> Spent ->
    (exists x, p = Done x) \/ exists s, access p w s.
  Proof.
    intros N1 N2. destruct p as [x| | |a k|a n k|n k|a k]; try contradiction; [eauto|right..].
    - destruct (there w a) eqn:E; eexists; [eapply access_look|eapply access_bad_look]; eauto.
    - destruct (there w a) eqn:E; eexists; [eapply access_store|eapply access_bad_store]; eauto.
    - destruct (bump_allocator w) as [Na Fr]. eexists. now apply access_make with (a := bump w).
    - destruct (there w a) eqn:E; eexists; [eapply access_drop|eapply access_bad_drop]; eauto.
  Qed.
End Threads.

(** ** Programs come to an end *)
Inductive smaller {A} : action A -> action A -> Prop :=
| sm_look a k n : smaller (k n) (Look a k)
| sm_store a n k : smaller k (Store a n k)
| sm_make n k a : smaller (k a) (Make n k)
| sm_drop a k : smaller k (Drop a k)
| sm_wrong p : p <> Wrong -> smaller Wrong p.

Lemma smaller_wf {A} : well_founded (@smaller A).
Proof.
  assert (U : Acc (@smaller A) Wrong).
  { constructor. intros q H. inversion H; subst. contradiction. }
  intros p. induction p as [x| | |a k IH|a n k IH|n k IH|a k IH]; try exact U;
    constructor; intros q H; inversion H; subst; auto.
Qed.

Lemma access_smaller {A} (p : action A) w p' w' : access p w (p', w') -> smaller p' p.
Proof. intros H. inversion H; subst; constructor; discriminate. Qed.

Inductive smaller_in {A} : list (action A) -> list (action A) -> Prop :=
| sm_in before p p' after : smaller p' p -> smaller_in (before ++ p' :: after) (before ++ p :: after).

Lemma smaller_in_wf {A} : well_founded (@smaller_in A).
Proof.
  intros ts. induction ts as [|p ts IH].
  - constructor. intros l H. inversion H. destruct before; discriminate.
  - revert ts IH. induction (smaller_wf p) as [p _ IHp]. intros ts IH.
    induction IH as [ts IHt IHt']. constructor. intros l H. inversion H as [before q q' after Hs E1 E2]. subst l.
    destruct before as [|b before]; cbn in *.
    + injection E2 as -> ->. apply IHp; [exact Hs|]. constructor. exact IHt.
    + injection E2 as -> <-. apply IHt'. now constructor.
Qed.
