(** * PointerProofs: the pointer operations of ModelState act like list operations. *)
From Coq Require Import Permutation.
From Verif Require Import Base Spec ModelTransducer ModelDawg ModelState SpecState.
Set Implicit Arguments.
Unset Strict Implicit.

(** ** Memory *)
Lemma mget_mdel_same {A} (m : mem A) p : mget (mdel m p) p = None.
Proof. unfold mget, mdel. cbn. now rewrite N.eqb_refl. Qed.
Lemma mget_mdel_other {A} (m : mem A) p q : p <> q -> mget (mdel m p) q = mget m q.
Proof. intros H. unfold mget, mdel. cbn. destruct (N.eqb_spec q p); [congruence|reflexivity]. Qed.
Lemma mget_mset_same {A} (m : mem A) p x : mget (mset m p x) p = Some x.
Proof. unfold mget, mset. cbn. now rewrite N.eqb_refl. Qed.
Lemma mget_mset_other {A} (m : mem A) p q x : p <> q -> mget (mset m p x) q = mget m q.
Proof. intros H. unfold mget, mset. cbn. destruct (N.eqb_spec q p); [congruence|reflexivity]. Qed.
Lemma mconst_none {A} (m : mem A) p : mget m p = None -> mconst m p = false.
Proof. unfold mget, mconst. now destruct (mlook m p). Qed.
Lemma mconst_mset {A} (m : mem A) p q x : mconst m p = false -> mconst (mset m p x) q = mconst m q.
Proof. intros H. unfold mconst, mset in *. cbn. destruct (N.eqb_spec q p); [subst q; now rewrite H|reflexivity]. Qed.
Lemma mconst_mdel {A} (m : mem A) p q : mconst m p = false -> mconst (mdel m p) q = mconst m q.
Proof. intros H. unfold mconst, mdel in *. cbn. destruct (N.eqb_spec q p); [subst q; now rewrite H|reflexivity]. Qed.
Lemma mread_ok {A} (m : mem A) p x : p <> null -> mget m p = Some x -> mread m p = Ok x.
Proof.
  intros H E. unfold mread. destruct (N.eqb_spec p null); [contradiction|]. now rewrite E.
Qed.
Lemma get_next_ok m p x n : p <> null -> mget m p = Some (Cell x n) -> get_next m p = Ok n.
Proof. intros H E. unfold get_next. rewrite (mread_ok H E). reflexivity. Qed.
Lemma get_pos_ok m p x n : p <> null -> mget m p = Some (Cell x n) -> get_pos m p = Ok x.
Proof. intros H E. unfold get_pos. rewrite (mread_ok H E). reflexivity. Qed.
Lemma set_next_ok m p x n q : p <> null -> mget m p = Some (Cell x n) -> mconst m p = false ->
  set_next m p q = Ok (mset m p (Cell x q)).
Proof.
  intros H E C. unfold set_next, mwrite. rewrite (mread_ok H E). cbn [rbind].
  rewrite ?(mread_ok H E). cbn [rbind]. now rewrite C.
Qed.

(** ** Segments *)

(** Where a segment that ends in [q] starts. *)
Definition enter (l : list stored) (q : ptr) : ptr :=
  match l with [] => q | s :: _ => fst s end.

Lemma segment_frame m m' p l q :
  (forall a, In a (map fst l) -> mget m' a = mget m a) -> segment m p l q -> segment m' p l q.
Proof.
  revert p. induction l as [|[a x] l IH]; intros p H; cbn; [tauto|].
  intros (E & Ha & n & G & S). split; [exact E|]. split; [exact Ha|].
  exists n. split; [rewrite H; [exact G|now left]|].
  apply IH; [intros b Hb; apply H; now right|exact S].
Qed.
Lemma segment_app m p l1 l2 q :
  segment m p (l1 ++ l2) q <-> exists r, segment m p l1 r /\ segment m r l2 q.
Proof.
  revert p. induction l1 as [|[a x] l1 IH]; intros p; cbn.
  - split; [intros H; now exists p|intros (r & -> & H); exact H].
  - split.
    + intros (E & Ha & n & G & S). apply IH in S. destruct S as (r & S1 & S2).
      exists r. split; [|exact S2]. split; [exact E|]. split; [exact Ha|]. now exists n.
    + intros (r & (E & Ha & n & G & S1) & S2). split; [exact E|]. split; [exact Ha|].
      exists n. split; [exact G|]. apply IH. now exists r.
Qed.
Lemma segment_nonnull m p l q : segment m p l q -> ~ In null (map fst l).
Proof.
  revert p. induction l as [|[a x] l IH]; intros p; cbn; [tauto|].
  intros (_ & Ha & n & _ & S) [H|H]; [contradiction|]. now apply (IH n).
Qed.
Lemma segment_start m p l : segment m p l null -> p = first_of l.
Proof. destruct l as [|[a x] l]; cbn; [tauto|]. now intros (H & _). Qed.
Lemma segment_start' m p l q : segment m p l q -> p = enter l q.
Proof. destruct l as [|[a x] l]; cbn; [tauto|]. now intros (H & _). Qed.
Lemma segment_get m p l1 a x l2 q : segment m p (l1 ++ (a, x) :: l2) q ->
  a <> null /\ mget m a = Some (Cell x (enter l2 q)).
Proof.
  intros H. apply segment_app in H. destruct H as (r & _ & (-> & Ha & n & G & S)).
  split; [exact Ha|]. now rewrite <- (segment_start' S).
Qed.

(** ** Worlds *)
Lemma addresses_cons p l q cs : addresses ((p, l, q) :: cs) = map fst l ++ addresses cs.
Proof. reflexivity. Qed.
Lemma addresses_perm cs cs' : Permutation cs cs' -> Permutation (addresses cs) (addresses cs').
Proof. intros H. unfold addresses. now apply Permutation_flat_map. Qed.

Lemma world_perm m base cs cs' :
  Permutation cs cs' -> consists_of m base cs -> consists_of m base cs'.
Proof.
  intros P (S & N & B & F & Q). pose proof (addresses_perm P) as PA. split; [|split; [|split; [|split; [|exact Q]]]].
  - intros p l q H. apply S. now apply (Permutation_in _ (Permutation_sym P)).
  - now apply (Permutation_NoDup PA).
  - intros a H. apply B. now apply (Permutation_in _ (Permutation_sym PA)).
  - intros a H. apply F. intros H'. apply H. now apply (Permutation_in _ PA).
Qed.
Lemma world_seg m base p l q cs : consists_of m base ((p, l, q) :: cs) -> segment m p l q.
Proof. intros (S & _). apply S. now left. Qed.

Lemma world_split m base p l1 l2 q cs :
  consists_of m base ((p, l1 ++ l2, q) :: cs) ->
  consists_of m base ((p, l1, enter l2 q) ::
                      (enter l2 q, l2, q) :: cs).
Proof.
  intros (S & N & B & F & Q).
  pose proof (S _ _ _ (or_introl eq_refl)) as S0. apply segment_app in S0.
  destruct S0 as (r & S1 & S2). pose proof (segment_start' S2) as ->.
  assert (EA : forall r, addresses ((p, l1, r) :: (r, l2, q) :: cs)
                     = addresses ((p, l1 ++ l2, q) :: cs)).
  { intros. rewrite !addresses_cons, map_app, app_assoc. reflexivity. }
  split; [|rewrite EA; split; [exact N|split; [exact B|split; [exact F|exact Q]]]].
  intros p' l' q' [H|[H|H]].
  - inversion H; subst. exact S1.
  - inversion H; subst. exact S2.
  - apply S. now right.
Qed.
Lemma world_join m base p l1 r l2 q cs :
  consists_of m base ((p, l1, r) :: (r, l2, q) :: cs) ->
  consists_of m base ((p, l1 ++ l2, q) :: cs).
Proof.
  intros (S & N & B & F & Q).
  assert (EA : addresses ((p, l1, r) :: (r, l2, q) :: cs)
                     = addresses ((p, l1 ++ l2, q) :: cs)).
  { intros. rewrite !addresses_cons, map_app, app_assoc. reflexivity. }
  rewrite EA in *. split; [|split; [exact N|split; [exact B|split; [exact F|exact Q]]]].
  intros p' l' q' [H|H].
  - inversion H; subst. apply segment_app. exists r.
    split; apply S; [now left|right; now left].
  - apply S. right. now right.
Qed.
Lemma world_empty m base p q cs : consists_of m base ((p, [], q) :: cs) ->
  p = q /\ consists_of m base cs.
Proof.
  intros (S & N & B & F & Q). split; [exact (S _ _ _ (or_introl eq_refl))|].
  split; [|split; [exact N|split; [exact B|split; [exact F|exact Q]]]].
  intros. apply S. now right.
Qed.
Lemma world_add_empty m base p cs : consists_of m base cs -> consists_of m base ((p, [], p) :: cs).
Proof.
  intros (S & N & B & F & Q). split; [|split; [exact N|split; [exact B|split; [exact F|exact Q]]]].
  intros p' l' q' [H|H]; [inversion H; subst; reflexivity|now apply S].
Qed.

(** Reading a position of a segment. *)
Lemma world_get m base p l1 a x l2 q cs :
  consists_of m base ((p, l1 ++ (a, x) :: l2, q) :: cs) ->
  a <> null /\ mget m a = Some (Cell x (enter l2 q)).
Proof. intros H. eapply segment_get. exact (world_seg H). Qed.

(** Redirecting the last pointer of a segment. *)
Lemma world_set_next m base p l a x q q' cs :
  consists_of m base ((p, l ++ [(a, x)], q) :: cs) ->
  exists m', set_next m a q' = Ok m' /\
             consists_of m' base ((p, l ++ [(a, x)], q') :: cs).
Proof.
  intros H. destruct (world_get H) as [Ha G].
  assert (C : mconst m a = false).
  { destruct H as (S & N & B & F & Q). rewrite Q. apply mconst_none, B.
    rewrite addresses_cons, map_app. apply in_or_app. left. apply in_or_app. right. now left. }
  exists (mset m a (Cell x q')). split; [now rewrite (set_next_ok q' Ha G C)|].
  destruct H as (S & N & B & F & Q).
  assert (EA : addresses ((p, l ++ [(a, x)], q') :: cs) = addresses ((p, l ++ [(a, x)], q) :: cs))
    by reflexivity.
  assert (Hsplit : addresses ((p, l ++ [(a, x)], q) :: cs) = map fst l ++ a :: addresses cs).
  { rewrite addresses_cons, map_app. cbn. now rewrite <- app_assoc. }
  assert (Hnl : ~ In a (map fst l ++ addresses cs)).
  { rewrite Hsplit in N. now apply NoDup_remove_2 in N. }
  split; [|rewrite EA; split; [exact N|split; [exact B|split; [|intros b; now rewrite mconst_mset]]]].
  - intros p' l' q'' [H|H].
    + inversion H; subst p' l' q''. apply segment_app. exists a.
      pose proof (S _ _ _ (or_introl eq_refl)) as S0. apply segment_app in S0.
      destruct S0 as (r & S1 & (-> & _ & _)). split.
      * apply (@segment_frame m); [|exact S1]. intros b Hb. apply mget_mset_other.
        intros ->. apply Hnl, in_or_app. now left.
      * split; [reflexivity|]. split; [exact Ha|]. exists q'.
        split; [apply mget_mset_same|reflexivity].
    + apply (@segment_frame m); [|apply S; now right]. intros b Hb. apply mget_mset_other.
      intros ->. apply Hnl, in_or_app. right. apply in_flat_map. now exists (p', l', q'').
  - intros b Hb. rewrite mget_mset_other; [now apply F|].
    intros ->. apply Hb. rewrite Hsplit. apply in_or_app. right. now left.
Qed.

(** Allocating and releasing a position. *)
Lemma world_new alloc m base x cs : mallocator alloc ->
  consists_of m base cs ->
  exists a m', new_position alloc m x = (a, m') /\ a <> null /\ mget m a = None /\
    consists_of m' base (loose (a, x) :: cs).
Proof.
  intros HA (S & N & B & F & Q). destruct (HA m) as [Hn Hf].
  set (a := alloc m) in *. exists a, (mset m a (Cell x null)).
  split; [reflexivity|]. split; [exact Hn|]. split; [exact Hf|].
  assert (Hna : ~ In a (addresses cs)).
  { intros H. unfold addresses in H. apply in_flat_map in H. destruct H as ([[p l] q] & H1 & H2).
    cbn in H2. pose proof (S _ _ _ H1) as Sg. apply in_map_iff in H2.
    destruct H2 as ([a' y] & Ea & H2). cbn in Ea. subst a'. apply in_split in H2.
    destruct H2 as (l1 & l2 & ->). destruct (segment_get Sg) as [_ G]. congruence. }
  split; [|split; [|split; [|split]]].
  - intros p l q [H|H].
    + inversion H; subst. cbn. split; [reflexivity|]. split; [exact Hn|].
      exists null. split; [|reflexivity]. apply mget_mset_same.
    + apply (@segment_frame m); [|now apply S]. intros b Hb. apply mget_mset_other.
      intros ->. apply Hna. apply in_flat_map. now exists (p, l, q).
  - cbn. constructor; assumption.
  - intros b [<-|Hb]; [|now apply B]. rewrite <- F; assumption.
  - intros b Hb. cbn in Hb. rewrite mget_mset_other; [apply F|]; intros H; apply Hb; tauto.
  - intros b. rewrite mconst_mset; [apply Q|]. now apply mconst_none.
Qed.
Lemma world_free m base p a x q cs :
  consists_of m base ((p, [(a, x)], q) :: cs) ->
  exists m', mfree m a = Ok m' /\ consists_of m' base cs.
Proof.
  intros H. destruct (world_get (l1:=[]) H) as [Ha G].
  destruct H as (S & N & B & F & Q).
  assert (C : mconst m a = false). { rewrite Q. apply mconst_none, B. now left. }
  exists (mdel m a). unfold mfree. rewrite (mread_ok Ha G). cbn [rbind]. rewrite C. split; [reflexivity|].
  cbn in N. apply NoDup_cons_iff in N. destruct N as [Hna N].
  split; [|split; [exact N|split; [|split; [|intros b; now rewrite mconst_mdel]]]].
  - intros p' l' q' H. apply (@segment_frame m); [|apply S; now right].
    intros b Hb. apply mget_mdel_other. intros ->. apply Hna. apply in_flat_map.
    now exists (p', l', q').
  - intros b Hb. apply B. now right.
  - intros b Hb. destruct (N.eq_dec a b) as [<-|Hab].
    + rewrite mget_mdel_same. symmetry. apply B. now left.
    + rewrite mget_mdel_other by exact Hab. apply F. cbn. tauto.
Qed.
Lemma world_delete m base p l cs fuel :
  consists_of m base ((p, l, null) :: cs) -> (length l < fuel)%nat ->
  exists m', delete_position fuel m p = Ok m' /\ consists_of m' base cs.
Proof.
  revert m p cs fuel. induction l as [|[a x] l IH]; intros m p cs fuel H Hf;
    (destruct fuel as [|fuel]; [cbn in Hf; lia|]).
  - apply world_empty in H. destruct H as [-> H]. exists m. split; [reflexivity|exact H].
  - pose proof (world_seg H) as Sg. destruct Sg as (-> & Ha & n & G & Sg).
    apply (@world_split m base a [(a, x)] l null cs) in H.
    assert (En : n = enter l null) by (exact (segment_start' Sg)).
    rewrite <- En in H.
    cbn [delete_position]. destruct (N.eqb_spec a null); [contradiction|].
    rewrite (get_next_ok Ha G). cbn [rbind].
    apply (world_perm (perm_swap _ _ _)) in H.
    destruct (IH m n _ fuel H) as (m1 & E1 & H1); [cbn in Hf; lia|].
    rewrite E1. cbn [rbind]. exact (world_free H1).
Qed.

(** ** State *)
Lemma last_snoc (l : list stored) s d : last (l ++ [s]) d = s.
Proof. induction l as [|y l IH]; [reflexivity|]. cbn. destruct (l ++ [s]) eqn:E; [destruct l; discriminate|exact IH]. Qed.

Lemma enter_app l1 l2 q : enter (l1 ++ l2) q = enter l1 (enter l2 q).
Proof. destruct l1; reflexivity. Qed.

Lemma world_start m base p l q cs : consists_of m base ((p, l, q) :: cs) -> p = enter l q.
Proof. intros H. exact (segment_start' (world_seg H)). Qed.

Lemma world_nonnull m base p l a x q cs :
  consists_of m base ((p, l, q) :: cs) -> In (a, x) l -> a <> null.
Proof.
  intros H Hin. apply in_split in Hin. destruct Hin as (l1 & l2 & ->).
  exact (proj1 (world_get H)).
Qed.

Lemma world_next m base p l1 a x l2 q cs :
  consists_of m base ((p, l1 ++ (a, x) :: l2, q) :: cs) -> get_next m a = Ok (enter l2 q).
Proof. intros H. destruct (world_get H) as [Ha G]. exact (get_next_ok Ha G). Qed.
Lemma world_pos m base p l1 a x l2 q cs :
  consists_of m base ((p, l1 ++ (a, x) :: l2, q) :: cs) -> get_pos m a = Ok x.
Proof. intros H. destruct (world_get H) as [Ha G]. exact (get_pos_ok Ha G). Qed.

(** Redirecting a pointer in the middle: the rest is split off. *)
Lemma world_cut m base p l1 a x l2 q q' cs :
  consists_of m base ((p, l1 ++ (a, x) :: l2, q) :: cs) ->
  exists m', set_next m a q' = Ok m' /\
    consists_of m' base ((p, l1 ++ [(a, x)], q') :: (enter l2 q, l2, q) :: cs).
Proof.
  intros H. change ((a, x) :: l2) with ([(a, x)] ++ l2) in H. rewrite app_assoc in H.
  apply world_split in H. exact (world_set_next q' H).
Qed.

Lemma state_head_ok m base h l p a x q cs :
  consists_of m base ((h, l, null) :: (p, [(a, x)], q) :: cs) ->
  exists m', state_head m h p = Ok (m', a) /\
    consists_of m' base ((a, (a, x) :: l, null) :: cs).
Proof.
  intros H. apply (world_perm (perm_swap _ _ _)) in H.
  pose proof (world_start H) as E. cbn in E. subst p.
  destruct (world_set_next (l:=[]) h H) as (m' & E & H').
  exists m'. unfold state_head. rewrite E. split; [reflexivity|].
  exact (world_join H').
Qed.

Lemma last_position_ok m base p l a x cs fuel :
  consists_of m base ((p, l ++ [(a, x)], null) :: cs) -> (length l < fuel)%nat ->
  last_position fuel m p = Ok a.
Proof.
  revert m p cs fuel. induction l as [|[b y] l IH]; intros m p cs fuel H Hf;
    (destruct fuel as [|fuel]; [cbn in Hf; lia|]); cbn [last_position].
  - pose proof (world_start H) as E. cbn in E. subst p.
    rewrite (world_next (l1:=[]) H). reflexivity.
  - pose proof (world_start H) as E. cbn in E. subst p.
    rewrite (@world_next m base b [] b y (l ++ [(a, x)]) null cs H). cbn [rbind].
    assert (Hn : enter (l ++ [(a, x)]) null <> null).
    { destruct l as [|[c z] l]; cbn; eapply (world_nonnull H); cbn; [right; left|right; left]; reflexivity. }
    destruct (N.eqb_spec (enter (l ++ [(a, x)]) null) null); [contradiction|].
    apply (@world_split m base b [(b, y)] (l ++ [(a, x)]) null cs) in H.
    apply (world_perm (perm_swap _ _ _)) in H. apply (IH _ _ _ _ H). cbn in Hf. lia.
Qed.

(** add appends the position, with all that follows it. *)
Lemma state_add_ok m base h l p a l' cs fuel :
  consists_of m base ((h, l, null) :: (p, a :: l', null) :: cs) -> (length l <= fuel)%nat ->
  exists m', state_add fuel m h p = Ok (m', enter l (fst a)) /\
    consists_of m' base ((enter l (fst a), l ++ a :: l', null) :: cs).
Proof.
  intros H Hf. pose proof (world_start H) as Eh.
  destruct l as [|b l0 _] using rev_ind.
  - apply world_empty in H. destruct H as [_ H]. pose proof (world_start H) as Ep. cbn in Ep. subst p h.
    exists m. split; [reflexivity|exact H].
  - destruct b as [b y].
    assert (Hp : p = fst a).
    { apply (world_perm (perm_swap _ _ _)) in H. exact (world_start H). }
    subst p. unfold state_add.
    assert (Eg : enter (l0 ++ [(b, y)]) (fst a) = h).
    { rewrite Eh, !enter_app. reflexivity. }
    rewrite Eg. clear Eg.
    assert (Hh : h <> null).
    { rewrite Eh. destruct l0 as [|[c z] l0]; cbn; eapply (world_nonnull H); cbn; [left|left]; reflexivity. }
    destruct (N.eqb_spec h null); [contradiction|].
    rewrite app_length in Hf. cbn in Hf.
    rewrite (last_position_ok (fuel:=fuel) H) by lia. cbn [rbind].
    destruct (world_set_next (fst a) H) as (m' & E & H'). rewrite E. cbn [rbind].
    exists m'. split; [reflexivity|]. exact (world_join H').
Qed.

Lemma insert_after_ok m base h l1 c y l2 p a x q cs fuel :
  consists_of m base ((h, l1 ++ (c, y) :: l2, null) :: (p, [(a, x)], q) :: cs) ->
  exists m', state_insert_after fuel m h c p = Ok (m', h) /\
    consists_of m' base ((h, l1 ++ (c, y) :: (a, x) :: l2, null) :: cs).
Proof.
  intros H. unfold state_insert_after.
  pose proof (proj1 (world_get H)) as Hc. destruct (N.eqb_spec c null); [contradiction|]. cbn [negb].
  rewrite (world_next H). cbn [rbind].
  apply (world_perm (perm_swap _ _ _)) in H.
  pose proof (world_start H) as E. cbn in E. subst p.
  destruct (world_set_next (l:=[]) (enter l2 null) H) as (m1 & E1 & H1). rewrite E1. cbn [rbind].
  apply (world_perm (perm_swap _ _ _)) in H1.
  destruct (world_cut a H1) as (m2 & E2 & H2). rewrite E2. cbn [rbind].
  exists m2. split; [reflexivity|].
  apply (world_perm (perm_skip _ (perm_swap _ _ _))) in H2.
  apply world_join in H2. apply world_join in H2.
  now rewrite <- !app_assoc in H2.
Qed.

(** The address of the last position, null if there is none. *)
Definition leave (l : list stored) : ptr := fst (last l (null, Pos 0 0 false)).

Lemma state_remove_ok m base h l1 a x l2 cs fuel :
  consists_of m base ((h, l1 ++ (a, x) :: l2, null) :: cs) -> (2 <= fuel)%nat ->
  exists m', state_remove fuel m h (leave l1) a = Ok (m', enter (l1 ++ l2) null) /\
    consists_of m' base ((enter (l1 ++ l2) null, l1 ++ l2, null) :: cs).
Proof.
  intros H Hf. unfold state_remove, leave.
  destruct l1 as [|[b y] l1 _] using rev_ind.
  - cbn [last fst app]. rewrite N.eqb_refl. cbn [negb rbind].
    pose proof (world_start H) as E. cbn in E. subst h.
    rewrite (world_next (l1:=[]) H). cbn [rbind].
    destruct (world_cut (l1:=[]) null H) as (m1 & E1 & H1). rewrite E1. cbn [rbind].
    destruct (@world_delete m1 base a [(a, x)] _ fuel H1) as (m2 & E2 & H2); [cbn; lia|].
    rewrite E2. cbn [rbind]. exists m2. split; [reflexivity|exact H2].
  - rewrite last_snoc. cbn [fst].
    rewrite <- app_assoc in H. cbn [app] in H.
    pose proof (proj1 (world_get H)) as Hb. destruct (N.eqb_spec b null); [contradiction|]. cbn [negb].
    rewrite (world_next H). cbn [rbind enter fst].
    assert (H' : consists_of m base ((h, (l1 ++ [(b, y)]) ++ (a, x) :: l2, null) :: cs))
      by (now rewrite <- app_assoc).
    rewrite (world_next H'). cbn [rbind].
    destruct (world_cut (enter l2 null) H) as (m1 & E1 & H1). rewrite E1. cbn [rbind enter fst] in *.
    apply (world_perm (perm_swap _ _ _)) in H1.
    destruct (world_cut (l1:=[]) null H1) as (m2 & E2 & H2). rewrite E2. cbn [rbind].
    destruct (@world_delete m2 base a [(a, x)] _ fuel H2) as (m3 & E3 & H3); [cbn; lia|].
    rewrite E3. cbn [rbind]. exists m3.
    apply (world_perm (perm_swap _ _ _)) in H3. apply world_join in H3.
    pose proof (world_start H3) as Eh. rewrite <- Eh. split; [reflexivity|exact H3].
Qed.

Lemma loose_chain a x : loose (a, x) = (a, [(a, x)], null).
Proof. reflexivity. Qed.

Lemma state_of_loop_ok base l' : forall m h l cs fuel,
  consists_of m base ((h, l, null) :: map loose l' ++ cs) -> (length l + length l' <= fuel)%nat ->
  exists m', state_of_loop fuel m h (leave l) (map fst l') = Ok (m', enter (l ++ l') null) /\
    consists_of m' base ((enter (l ++ l') null, l ++ l', null) :: cs).
Proof.
  induction l' as [|[a x] l' IH]; intros m h l cs fuel H Hf.
  - exists m. rewrite app_nil_r. pose proof (world_start H) as <-. split; [reflexivity|exact H].
  - cbn [map state_of_loop fst].
    assert (exists m1, state_insert_after fuel m h (leave l) a = Ok (m1, enter (l ++ [(a, x)]) null) /\
      consists_of m1 base ((enter (l ++ [(a, x)]) null, l ++ [(a, x)], null) :: map loose l' ++ cs))
      as (m1 & E1 & H1).
    { cbn [map app] in H. rewrite loose_chain in H. unfold leave.
      destruct l as [|[b y] l _] using rev_ind.
      - unfold state_insert_after. cbn [last fst]. rewrite N.eqb_refl. cbn [negb].
        destruct (state_add_ok (fuel:=fuel) H) as (m1 & E1 & H1); [cbn; lia|].
        exists m1. split; [exact E1|exact H1].
      - rewrite last_snoc. cbn [fst].
        destruct (insert_after_ok fuel H) as (m1 & E1 & H1). exists m1.
        rewrite <- app_assoc. cbn [app].
        pose proof (world_start H1) as Eh. rewrite <- Eh. split; [exact E1|exact H1]. }
    rewrite E1. cbn [rbind].
    assert (El : leave (l ++ [(a, x)]) = a) by (unfold leave; now rewrite last_snoc).
    destruct (IH m1 _ _ cs fuel H1) as (m2 & E2 & H2).
    { rewrite app_length. cbn in *. lia. }
    rewrite El in E2. exists m2. rewrite <- app_assoc in E2, H2. split; [exact E2|exact H2].
Qed.

(** ** Sorting *)
Lemma merge_lists_eq cmp L U : merge_lists cmp L U =
  match L, U with
  | [], _ => U
  | _, [] => L
  | a :: L', b :: U' =>
      if (cmp a b <? 1)%Z then a :: merge_lists cmp L' U else b :: merge_lists cmp L U'
  end.
Proof. destruct L, U; reflexivity. Qed.

Lemma find_middle_loop_ok fuel : forall m base slow fast ls lf cs cs',
  consists_of m base ((slow, ls, null) :: cs) ->
  consists_of m base ((fast, lf, null) :: cs') ->
  lf <> [] -> (length lf <= length ls)%nat -> (length lf < fuel)%nat ->
  exists l1 a x l2, ls = l1 ++ (a, x) :: l2 /\ length l1 = Nat.div (length lf - 1) 2 /\
    find_middle_loop fuel m slow fast = Ok a.
Proof.
  induction fuel as [|fuel IH]; intros m base slow fast ls lf cs cs' HS HF Hne Hle Hf; [lia|].
  destruct lf as [|[a1 x1] lf]; [contradiction|].
  destruct ls as [|[b y] ls]; [cbn in Hle; lia|].
  pose proof (world_start HF) as E. cbn in E. subst fast.
  pose proof (world_start HS) as E. cbn in E. subst slow.
  cbn [find_middle_loop]. rewrite (@world_next m base a1 [] a1 x1 lf null cs' HF). cbn [rbind].
  destruct lf as [|[a2 x2] lf].
  { cbn. exists [], b, y, ls. repeat split; reflexivity. }
  cbn [enter fst].
  pose proof (proj1 (@world_get m base a1 [(a1, x1)] a2 x2 lf null cs' HF)) as Hn2.
  destruct (N.eqb_spec a2 null); [contradiction|].
  rewrite (@world_next m base a1 [(a1, x1)] a2 x2 lf null cs' HF). cbn [rbind].
  destruct lf as [|[a3 x3] lf].
  { cbn. exists [], b, y, ls. repeat split; reflexivity. }
  cbn [enter fst].
  pose proof (proj1 (@world_get m base a1 [(a1, x1); (a2, x2)] a3 x3 lf null cs' HF)) as Hn3.
  destruct (N.eqb_spec a3 null); [contradiction|].
  rewrite (@world_next m base b [] b y ls null cs HS). cbn [rbind].
  apply (@world_split m base b [(b, y)] ls null cs) in HS.
  apply (world_perm (perm_swap _ _ _)) in HS.
  apply (@world_split m base a1 [(a1, x1); (a2, x2)] ((a3, x3) :: lf) null cs') in HF.
  apply (world_perm (perm_swap _ _ _)) in HF.
  destruct (IH _ _ _ _ _ _ _ _ HS HF) as (l1 & c & z & l2 & -> & Hl & E);
    [discriminate|cbn in *; lia|cbn in *; lia|].
  exists ((b, y) :: l1), c, z, l2. split; [reflexivity|]. split; [|exact E].
  cbn [length] in *. rewrite Hl. cbn [Nat.sub].
  replace (S (S (length lf)))%nat with (length lf + 1 * 2)%nat by lia.
  rewrite Nat.div_add by lia. rewrite Nat.sub_0_r. lia.
Qed.

Lemma merge_pointers_ok cmp base fuel : forall m first pre q lower L upper U cs,
  consists_of m base ((first, pre, q) :: (lower, L, null) :: (upper, U, null) :: cs) ->
  (L <> [] \/ U <> []) -> (length L + length U < fuel)%nat ->
  exists m' first' l', 
    merge_pointers fuel cmp m first
      (match pre with [] => None | _ => Some (leave pre) end) lower upper = Ok (m', first') /\
    consists_of m' base ((first', pre ++ l', null) :: cs) /\
    Permutation l' (L ++ U) /\
    map snd l' = merge_lists cmp (map snd L) (map snd U).
Proof.
  assert (Hlink : forall m first pre q p l r cs,
    consists_of m base ((first, pre, q) :: (p, l, r) :: cs) -> l <> [] ->
    exists m' first', link m first (match pre with [] => None | _ => Some (leave pre) end) p = Ok (m', first') /\
    consists_of m' base ((first', pre ++ l, r) :: cs)).
  { intros m first pre q p l r cs H Hl.
    destruct pre as [|[c z] pre _] using rev_ind.
    - apply world_empty in H. destruct H as [_ H]. exists m, p. split; [reflexivity|exact H].
    - assert (E : match pre ++ [(c, z)] with [] => None | _ => Some (leave (pre ++ [(c, z)])) end = Some c).
      { unfold leave. rewrite last_snoc. destruct pre; reflexivity. }
      rewrite E. clear E. unfold link. destruct (world_set_next p H) as (m' & E & H').
      rewrite E. cbn [rbind]. exists m', first. split; [reflexivity|].
      exact (world_join H'). }
  induction fuel as [|fuel IH]; intros m first pre q lower L upper U cs H Hne Hf; [lia|].
  cbn [merge_pointers].
  assert (EL : lower = enter L null).
  { apply (world_perm (perm_swap _ _ _)) in H. exact (world_start H). }
  assert (EU : upper = enter U null).
  { apply (world_perm (perm_trans (perm_skip _ (perm_swap _ _ _)) (perm_swap _ _ _))) in H.
    exact (world_start H). }
  destruct L as [|[a x] L].
  { assert (HU : U <> []) by tauto. cbn in EL. subst lower. rewrite N.eqb_refl. cbn [negb andb].
    destruct U as [|[b y] U]; [contradiction|]. cbn in EU. subst upper.
    assert (Hb : b <> null).
    { apply (world_perm (perm_trans (perm_skip _ (perm_swap _ _ _)) (perm_swap _ _ _))) in H.
      eapply (world_nonnull H). now left. }
    destruct (N.eqb_spec b null); [contradiction|]. cbn [negb].
    apply (world_perm (perm_swap _ _ _)) in H. apply world_empty in H. destruct H as [_ H].
    destruct (Hlink _ _ _ _ _ _ _ _ H) as (m' & f' & E' & H'); [discriminate|].
    exists m', f', ((b, y) :: U). split; [exact E'|]. split; [exact H'|].
    split; [apply Permutation_refl|reflexivity]. }
  assert (Ha : a <> null).
  { apply (world_perm (perm_swap _ _ _)) in H. eapply (world_nonnull H). now left. }
  cbn in EL. subst lower.
  destruct U as [|[b y] U].
  { cbn in EU. subst upper. rewrite N.eqb_refl. destruct (N.eqb_spec a null); [contradiction|].
    cbn [negb andb].
    apply (world_perm (perm_trans (perm_skip _ (perm_swap _ _ _)) (perm_swap _ _ _))) in H.
    apply world_empty in H. destruct H as [_ H].
    destruct (Hlink _ _ _ _ _ _ _ _ H) as (m' & f' & E' & H'); [discriminate|].
    exists m', f', ((a, x) :: L). split; [exact E'|]. split; [exact H'|].
    split; [rewrite app_nil_r; apply Permutation_refl|reflexivity]. }
  assert (Hb : b <> null).
  { apply (world_perm (perm_trans (perm_skip _ (perm_swap _ _ _)) (perm_swap _ _ _))) in H.
    eapply (world_nonnull H). now left. }
  cbn in EU. subst upper.
  destruct (N.eqb_spec a null); [contradiction|]. destruct (N.eqb_spec b null); [contradiction|].
  cbn [negb andb].
  assert (Gx : get_pos m a = Ok x).
  { apply (world_perm (perm_swap _ _ _)) in H. exact (world_pos (l1:=[]) H). }
  assert (Gy : get_pos m b = Ok y).
  { apply (world_perm (perm_trans (perm_skip _ (perm_swap _ _ _)) (perm_swap _ _ _))) in H.
    exact (world_pos (l1:=[]) H). }
  rewrite Gx, Gy. cbn [rbind].
  cbn [map snd]. rewrite merge_lists_eq.
  destruct (cmp x y <? 1)%Z.
  - destruct (Hlink _ _ _ _ _ _ _ _ H) as (m1 & f1 & E1 & H1); [discriminate|].
    rewrite E1. cbn [rbind]. rewrite (world_next H1). cbn [rbind].
    change ((a, x) :: L) with ([(a, x)] ++ L) in H1. rewrite app_assoc in H1. apply world_split in H1.
    destruct (IH _ _ _ _ _ _ _ _ _ H1) as (m2 & f2 & l' & E2 & H2 & P2 & M2);
      [right; discriminate|cbn in *; lia|].
    assert (E : match pre ++ [(a, x)] with [] => None | _ => Some (leave (pre ++ [(a, x)])) end = Some a).
    { unfold leave. rewrite last_snoc. destruct pre; reflexivity. }
    rewrite E in E2. exists m2, f2, ((a, x) :: l'). split; [exact E2|].
    rewrite <- app_assoc in H2. split; [exact H2|]. split.
    + cbn. now constructor.
    + cbn. now rewrite M2.
  - assert (H0 : consists_of m base ((first, pre, q) :: (b, (b, y) :: U, null) :: (a, (a, x) :: L, null) :: cs))
      by exact (world_perm (perm_skip _ (perm_swap _ _ _)) H).
    destruct (Hlink _ _ _ _ _ _ _ _ H0) as (m1 & f1 & E1 & H1); [discriminate|].
    rewrite E1. cbn [rbind]. rewrite (world_next H1). cbn [rbind].
    change ((b, y) :: U) with ([(b, y)] ++ U) in H1. rewrite app_assoc in H1. apply world_split in H1.
    apply (world_perm (perm_skip _ (perm_swap _ _ _))) in H1.
    destruct (IH _ _ _ _ _ _ _ _ _ H1) as (m2 & f2 & l' & E2 & H2 & P2 & M2);
      [left; discriminate|cbn in *; lia|].
    assert (E : match pre ++ [(b, y)] with [] => None | _ => Some (leave (pre ++ [(b, y)])) end = Some b).
    { unfold leave. rewrite last_snoc. destruct pre; reflexivity. }
    rewrite E in E2. exists m2, f2, ((b, y) :: l'). split; [exact E2|].
    rewrite <- app_assoc in H2. split; [exact H2|]. split.
    + apply Permutation_cons_app. exact P2.
    + cbn [map snd]. f_equal. exact M2.
Qed.

Lemma merge_sort_step f cmp l : (2 <= length l)%nat ->
  merge_sort (S f) cmp l =
    (do a <- merge_sort f cmp (fst (halves l)); do b <- merge_sort f cmp (snd (halves l));
     Ok (merge_lists cmp a b)).
Proof.
  intros H. destruct l as [|x [|y l]]; [cbn in H; lia|cbn in H; lia|].
  cbn [merge_sort]. destruct (halves (x :: y :: l)); reflexivity.
Qed.

Lemma sort_pointers_ok order cmp base fuel : forall m p l cs,
  consists_of m base ((p, l, null) :: cs) -> (length l < fuel)%nat ->
  exists m' h l', sort_pointers fuel order cmp m p = Ok (m', h) /\
    consists_of m' base ((h, l', null) :: cs) /\ Permutation l' l /\
    (forall f, (length l <= f)%nat -> merge_sort f cmp (map snd l) = Ok (map snd l')).
Proof.
  induction fuel as [|fuel IH]; intros m p l cs H Hf; [lia|].
  pose proof (world_start H) as Ep.
  destruct l as [|[a1 x1] [|[a2 x2] l]].
  - cbn in Ep. subst p. exists m, null, []. cbn [sort_pointers]. rewrite N.eqb_refl.
    split; [reflexivity|]. split; [exact H|]. split; [constructor|].
    intros [|f] _; reflexivity.
  - cbn in Ep. subst p. exists m, a1, [(a1, x1)].
    pose proof (world_nonnull H (or_introl eq_refl)) as Ha.
    cbn [sort_pointers]. destruct (N.eqb_spec a1 null); [contradiction|].
    rewrite (world_next (l1:=[]) H). cbn [rbind enter]. rewrite N.eqb_refl.
    split; [reflexivity|]. split; [exact H|]. split; [apply Permutation_refl|].
    intros [|f] _; reflexivity.
  - remember ((a1, x1) :: (a2, x2) :: l) as L eqn:EL.
    assert (HL : (2 <= length L)%nat) by (subst L; cbn; lia).
    assert (Hp : p <> null).
    { subst p. subst L. eapply (world_nonnull H). now left. }
    assert (Hnx : exists n, get_next m p = Ok n /\ n <> null).
    { subst L. cbn in Ep. subst p. exists a2.
      split; [exact (@world_next _ _ _ [] _ _ _ _ _ H)|].
      eapply (world_nonnull H). right. now left. }
    destruct Hnx as (nx & Enx & Hnx).
    cbn [sort_pointers]. destruct (N.eqb_spec p null); [contradiction|].
    rewrite Enx. cbn [rbind]. destruct (N.eqb_spec nx null); [contradiction|].
    destruct (find_middle_loop_ok (fuel:=S fuel) H H) as (l1 & c & z & l2 & EL2 & Hl1 & Efm);
      [destruct L; [cbn in HL; lia|discriminate]|lia|lia|].
    unfold find_middle. rewrite Efm. cbn [rbind].
    assert (Hdiv : (length l1 + 1 = Nat.div (length L + 1) 2)%nat).
    { rewrite Hl1. replace (length L + 1)%nat with ((length L - 1) + 1 * 2)%nat by lia.
      rewrite Nat.div_add by lia. reflexivity. }
    assert (Hlen : (length L = length l1 + 1 + length l2)%nat).
    { rewrite EL2, app_length. cbn. lia. }
    assert (Hl2 : l2 <> []).
    { intros ->. cbn in Hlen. pose proof (Nat.div_mod (length L + 1) 2 ltac:(lia)).
      pose proof (Nat.mod_upper_bound (length L + 1) 2 ltac:(lia)). lia. }
    rewrite EL2 in H. rewrite (world_next H). cbn [rbind].
    destruct (world_cut null H) as (m1 & E1 & H1). rewrite E1. cbn [rbind].
    set (lo := l1 ++ [(c, z)]) in *.
    assert (Hlo : length lo = (length l1 + 1)%nat) by (unfold lo; rewrite app_length; reflexivity).
    assert (Hfuel1 : (length lo < fuel)%nat).
    { destruct l2 as [|w l2]; [contradiction|]. cbn in Hlen. lia. }
    assert (Hfuel2 : (length l2 < fuel)%nat) by lia.
    assert (exists m3 a b la lb,
      (if order m1 p then
         do (m2, a) <- sort_pointers fuel order cmp m1 p;
         do (m3, b) <- sort_pointers fuel order cmp m2 (enter l2 null);
         Ok (m3, a, b)
       else
         do (m2, b) <- sort_pointers fuel order cmp m1 (enter l2 null);
         do (m3, a) <- sort_pointers fuel order cmp m2 p;
         Ok (m3, a, b)) = Ok (m3, a, b) /\
      consists_of m3 base ((a, la, null) :: (b, lb, null) :: cs) /\
      Permutation la lo /\ Permutation lb l2 /\
      (forall f, (length lo <= f)%nat -> merge_sort f cmp (map snd lo) = Ok (map snd la)) /\
      (forall f, (length l2 <= f)%nat -> merge_sort f cmp (map snd l2) = Ok (map snd lb)))
      as (m3 & a & b & la & lb & E3 & H3 & Pa & Pb & Ma & Mb).
    { destruct (order m1 p).
      - destruct (IH _ _ _ _ H1 Hfuel1) as (m2 & a & la & E2 & H2 & Pa & Ma).
        rewrite E2. cbn [rbind]. apply (world_perm (perm_swap _ _ _)) in H2.
        destruct (IH _ _ _ _ H2 Hfuel2) as (m3 & b & lb & E3 & H3 & Pb & Mb).
        rewrite E3. cbn [rbind]. apply (world_perm (perm_swap _ _ _)) in H3.
        exists m3, a, b, la, lb. repeat (split; [first [reflexivity|assumption]|]). assumption.
      - apply (world_perm (perm_swap _ _ _)) in H1.
        destruct (IH _ _ _ _ H1 Hfuel2) as (m2 & b & lb & E2 & H2 & Pb & Mb).
        rewrite E2. cbn [rbind]. apply (world_perm (perm_swap _ _ _)) in H2.
        destruct (IH _ _ _ _ H2 Hfuel1) as (m3 & a & la & E3 & H3 & Pa & Ma).
        rewrite E3. cbn [rbind].
        exists m3, a, b, la, lb. repeat (split; [first [reflexivity|assumption]|]). assumption. }
    rewrite E3. cbn [rbind].
    apply (world_add_empty null) in H3.
    pose proof (Permutation_length Pa) as La. pose proof (Permutation_length Pb) as Lb.
    destruct (@merge_pointers_ok cmp base (S fuel) m3 null [] null a la b lb cs H3)
      as (m' & h & l' & E' & H' & P' & M').
    { left. intros ->. cbn in La. lia. }
    { lia. }
    exists m', h, l'. split; [exact E'|]. split; [exact H'|]. split.
    + rewrite P', EL2. change ((c, z) :: l2) with ([(c, z)] ++ l2). rewrite app_assoc. fold lo.
      now apply Permutation_app.
    + intros f Hfl. destruct f as [|f]; [lia|].
      rewrite merge_sort_step by (now rewrite map_length).
      assert (Hhalves : halves (map snd L) = (map snd lo, map snd l2)).
      { unfold halves. rewrite map_length, <- Hdiv, <- Hlo, EL2.
        change ((c, z) :: l2) with ([(c, z)] ++ l2). rewrite app_assoc. fold lo.
        rewrite map_app, <- (map_length snd lo), firstn_app, skipn_app.
        rewrite Nat.sub_diag, firstn_all, skipn_all. cbn. now rewrite app_nil_r. }
      rewrite Hhalves. cbn [fst snd].
      rewrite Ma by lia. rewrite Mb by lia. cbn [rbind]. now rewrite M'.
Qed.

Lemma state_sort_ok order cmp m base h l cs fuel :
  consists_of m base ((h, l, null) :: cs) -> (length l < fuel)%nat ->
  exists m' h' l', state_sort fuel order cmp m h = Ok (m', h') /\
    consists_of m' base ((h', l', null) :: cs) /\ Permutation l' l /\
    sort cmp (map snd l) = Ok (map snd l').
Proof.
  intros H Hf. destruct (sort_pointers_ok order cmp H Hf) as (m' & h' & l' & E & H' & P & M).
  exists m', h', l'. split; [exact E|]. split; [exact H'|]. split; [exact P|].
  unfold sort. apply M. rewrite map_length. lia.
Qed.

(** ** Iterators *)
Lemma first_enter l : first_of l = enter l null.
Proof. reflexivity. Qed.
Definition the_end : iterator := Iterator null null null.

Lemma stands_unfold it l1 l2 :
  stands it l1 l2 <-> it = Iterator (first_of l2) (first_of (tl l2)) (leave l1).
Proof. reflexivity. Qed.

Lemma stands_begin m h l : segment m h l null ->
  exists it, state_begin m h = Ok it /\ stands it [] l.
Proof.
  intros H. unfold state_begin, new_iterator. destruct l as [|[a x] l].
  - cbn in H. subst h. exists the_end. split; reflexivity.
  - destruct H as (-> & Ha & n & G & S). destruct (N.eqb_spec a null); [contradiction|]. cbn [negb].
    rewrite (get_next_ok Ha G). cbn [rbind].
    exists (Iterator a n null). split; [reflexivity|]. unfold stands. cbn. f_equal.
    exact (segment_start S).
Qed.

Lemma state_end_eq m : state_end m = Ok the_end.
Proof. reflexivity. Qed.

Lemma segment_next m h l1 a x l2 : segment m h (l1 ++ (a, x) :: l2) null ->
  get_next m a = Ok (first_of l2).
Proof. intros H. destruct (segment_get H) as [Ha G]. exact (get_next_ok Ha G). Qed.
Lemma segment_pos m h l1 a x l2 q : segment m h (l1 ++ (a, x) :: l2) q -> get_pos m a = Ok x.
Proof. intros H. destruct (segment_get H) as [Ha G]. exact (get_pos_ok Ha G). Qed.

Lemma stands_eq m h it l1 l2 : segment m h (l1 ++ l2) null -> stands it l1 l2 ->
  iterator_eq it the_end = match l2 with [] => true | _ => false end.
Proof.
  intros H ->. unfold iterator_eq. cbn [si_curr si_next the_end].
  destruct l2 as [|[a x] l2]; [reflexivity|]. cbn [first_of fst].
  destruct (segment_get H) as [Ha _]. destruct (N.eqb_spec a null); [contradiction|reflexivity].
Qed.

Lemma leave_snoc l a x : leave (l ++ [(a, x)]) = a.
Proof. unfold leave. now rewrite last_snoc. Qed.

(** Moving past what follows, whatever stands before. *)
Lemma next_general m h l1 l2 c p :
  segment m h (l1 ++ l2) null ->
  iterator_next m (Iterator c (first_of l2) p) =
  Ok (Iterator (first_of l2) (first_of (tl l2)) (if N.eqb c null then p else c)).
Proof.
  intros H. unfold iterator_next. cbn [si_curr si_next si_prev].
  assert (E : (if negb (c =? null)%N then c else p) = (if (c =? null)%N then p else c))
    by (destruct (c =? null)%N; reflexivity).
  rewrite E. destruct l2 as [|[b y] l2]; [reflexivity|].
  cbn [first_of fst tl]. destruct (segment_get H) as [Hb _].
  destruct (N.eqb_spec b null); [contradiction|]. cbn [negb].
  rewrite (segment_next H). reflexivity.
Qed.

Lemma stands_next m h it l1 a x l2 :
  segment m h (l1 ++ (a, x) :: l2) null -> stands it l1 ((a, x) :: l2) ->
  exists it', iterator_next m it = Ok it' /\ stands it' (l1 ++ [(a, x)]) l2.
Proof.
  intros H ->. cbn [first_of fst tl].
  destruct (segment_get H) as [Ha _].
  change ((a, x) :: l2) with ([(a, x)] ++ l2) in H. rewrite app_assoc in H.
  fold (leave l1). rewrite (next_general a (leave l1) H).
  exists (Iterator (first_of l2) (first_of (tl l2)) a). split.
  - destruct (N.eqb_spec a null); [contradiction|reflexivity].
  - unfold stands. fold (leave (l1 ++ [(a, x)])). now rewrite leave_snoc.
Qed.

Lemma stands_next_end m it l1 : stands it l1 [] -> iterator_next m it = Ok it.
Proof. intros ->. reflexivity. Qed.

(** An iterator whose position has just been removed from between [l1] and [l2]. *)
Definition gap (it : iterator) (l1 l2 : list stored) : Prop :=
  it = Iterator null (first_of l2) (leave l1).

Lemma gap_next m h it l1 l2 : segment m h (l1 ++ l2) null -> gap it l1 l2 ->
  exists it', iterator_next m it = Ok it' /\ stands it' l1 l2.
Proof.
  intros H ->. rewrite (next_general null (leave l1) H). rewrite N.eqb_refl.
  eexists. split; [reflexivity|]. reflexivity.
Qed.

Lemma iterator_insert_ok m base h it l1 b y l2 p a x q cs fuel :
  consists_of m base ((h, l1 ++ (b, y) :: l2, null) :: (p, [(a, x)], q) :: cs) ->
  stands it l1 ((b, y) :: l2) ->
  exists m' it', iterator_insert fuel m h it p = Ok (m', h, it') /\
    consists_of m' base ((h, l1 ++ (b, y) :: (a, x) :: l2, null) :: cs) /\
    stands it' l1 ((b, y) :: (a, x) :: l2).
Proof.
  intros H ->. unfold iterator_insert. cbn [first_of fst si_curr si_next si_prev tl].
  pose proof (proj1 (world_get H)) as Hb. destruct (N.eqb_spec b null); [contradiction|]. cbn [negb].
  destruct (insert_after_ok fuel H) as (m' & E & H'). rewrite E. cbn [rbind].
  eexists m', _. split; [reflexivity|]. split; [exact H'|].
  apply (world_perm (perm_swap _ _ _)) in H. pose proof (world_start H) as Ep. cbn in Ep. subst p.
  reflexivity.
Qed.

(** With no current position, at the end or after a removal, insert puts the
    new position at the front of the state. *)
Lemma iterator_insert_front m base h l p a x q cs c fuel :
  consists_of m base ((h, l, null) :: (p, [(a, x)], q) :: cs) -> si_curr c = null ->
  exists m', iterator_insert fuel m h c p = Ok (m', a, Iterator null a (si_prev c)) /\
    consists_of m' base ((a, (a, x) :: l, null) :: cs).
Proof.
  intros H Hc. unfold iterator_insert. rewrite Hc, N.eqb_refl. cbn [negb].
  pose proof H as H0. apply (world_perm (perm_swap _ _ _)) in H0.
  pose proof (world_start H0) as Ep. cbn in Ep. subst p.
  destruct (state_head_ok H) as (m' & E & H'). rewrite E. cbn [rbind].
  exists m'. split; [reflexivity|exact H'].
Qed.

Lemma iterator_remove_ok m base h it outer l1 a x l2 cs fuel :
  consists_of m base ((h, l1 ++ (a, x) :: l2, null) :: cs) -> (2 <= fuel)%nat ->
  stands it l1 ((a, x) :: l2) ->
  exists m' it', iterator_remove fuel m h it outer =
      Ok (m', enter (l1 ++ l2) null, it',
          match outer with
          | Some o => if N.eqb (si_next o) a
                      then Some (Iterator (si_curr o) (first_of l2) (si_prev o)) else Some o
          | None => None
          end) /\
    consists_of m' base ((enter (l1 ++ l2) null, l1 ++ l2, null) :: cs) /\
    gap it' l1 l2.
Proof.
  intros H Hf ->. unfold iterator_remove. cbn [first_of fst si_curr si_next si_prev tl].
  pose proof (proj1 (world_get H)) as Ha. destruct (N.eqb_spec a null); [contradiction|]. cbn [negb].
  destruct (state_remove_ok H Hf) as (m' & E & H').
  assert (Eo : match outer with
      | Some o =>
          if (si_next o =? a)%N then
            do q <- get_next m (si_next o);
            Ok (Some (Iterator (si_curr o) q (si_prev o)))
          else Ok outer
      | None => Ok None
      end = Ok (match outer with
          | Some o => if N.eqb (si_next o) a
                      then Some (Iterator (si_curr o) (first_of l2) (si_prev o)) else Some o
          | None => None
          end)).
  { destruct outer as [o|]; [|reflexivity]. destruct (N.eqb_spec (si_next o) a) as [->|]; [|reflexivity].
    rewrite (world_next H). reflexivity. }
  rewrite Eo. cbn [rbind]. fold (leave l1). rewrite E. cbn [rbind].
  eexists m', _. split; [reflexivity|]. split; [exact H'|]. reflexivity.
Qed.

(** ** merge *)
Lemma merge_walk_ok alg m h x fuel : forall l2 l1 it,
  segment m h (l1 ++ l2) null -> stands it l1 l2 -> (length l2 < fuel)%nat ->
  exists la lb it', l2 = la ++ lb /\
    merge_walk fuel alg m x it the_end (leave l1) = Ok (it', leave (l1 ++ la)) /\
    stands it' (l1 ++ la) lb /\
    Forall (fun s => merge_before alg x (snd s) = true) la /\
    match lb with [] => True | s :: _ => merge_before alg x (snd s) = false end.
Proof.
  induction fuel as [|fuel IH]; intros l2 l1 it H St Hf; [lia|]. cbn [merge_walk].
  rewrite (stands_eq H St). destruct l2 as [|[b y] l2]; cbn [negb].
  - exists [], [], it. rewrite !app_nil_r. repeat (split; [first [reflexivity|assumption|constructor]|]).
    exact I.
  - assert (Hc : si_curr it = b) by (rewrite St; reflexivity). rewrite Hc.
    rewrite (segment_pos H). cbn [rbind].
    destruct (merge_before alg x y) eqn:Eb.
    + destruct (stands_next H St) as (it1 & E1 & St1). rewrite E1. cbn [rbind].
      change ((b, y) :: l2) with ([(b, y)] ++ l2) in H. rewrite app_assoc in H.
      destruct (IH l2 (l1 ++ [(b, y)]) it1 H St1) as (la & lb & it' & -> & E & St' & Fa & Fb);
        [cbn in Hf; lia|].
      rewrite leave_snoc, <- app_assoc in E. rewrite <- app_assoc in St'.
      exists ((b, y) :: la), lb, it'. split; [reflexivity|]. split; [exact E|]. split; [exact St'|].
      split; [now constructor|exact Fb].
    + exists [], ((b, y) :: l2), it. rewrite app_nil_r.
      split; [reflexivity|]. split; [reflexivity|]. split; [exact St|]. split; [constructor|exact Eb].
Qed.

Lemma merge_one_walk alg x la lb :
  Forall (fun s : stored => merge_before alg x (snd s) = true) la ->
  match lb with [] => True | s :: _ => merge_before alg x (snd s) = false end ->
  merge_one alg (map snd (la ++ lb)) x =
  map snd la ++ match lb with
                | [] => [x]
                | s :: _ => if merge_same alg x (snd s) then map snd lb else x :: map snd lb
                end.
Proof.
  intros Fa Fb. induction Fa as [|[a y] la Ha Fa IH]; cbn [map app snd].
  - destruct lb as [|[b z] lb]; [reflexivity|]. cbn [map snd merge_one] in *. rewrite Fb. reflexivity.
  - cbn [merge_one snd] in *. rewrite Ha. f_equal. exact IH.
Qed.

Lemma merge_insert_ok m base h la lb a x cs fuel :
  consists_of m base ((h, la ++ lb, null) :: loose (a, x) :: cs) ->
  exists m' h', insert_after fuel m h (leave la) a = Ok (m', h') /\
    consists_of m' base ((h', la ++ (a, x) :: lb, null) :: cs).
Proof.
  intros H. rewrite loose_chain in H. unfold insert_after.
  destruct la as [|[b y] la _] using rev_ind.
  - cbn [leave last fst]. rewrite N.eqb_refl.
    destruct (state_head_ok H) as (m' & E & H'). exists m', a. split; [exact E|exact H'].
  - rewrite leave_snoc. rewrite <- app_assoc in H. cbn [app] in H.
    pose proof (proj1 (world_get H)) as Hb. destruct (N.eqb_spec b null); [contradiction|].
    destruct (insert_after_ok fuel H) as (m' & E & H'). exists m', h. split; [exact E|].
    rewrite <- app_assoc. exact H'.
Qed.

Lemma merge_position_ok alg m base h l a x cs fuel :
  consists_of m base ((h, l, null) :: loose (a, x) :: cs) -> (length l + 1 < fuel)%nat ->
  exists m' h' l', merge_position fuel alg m h a = Ok (m', h') /\
    consists_of m' base ((h', l', null) :: cs) /\
    map snd l' = merge_one alg (map snd l) x /\ incl l' ((a, x) :: l).
Proof.
  intros H Hf. unfold merge_position.
  assert (Ea : get_pos m a = Ok x).
  { apply (world_perm (perm_swap _ _ _)) in H. exact (world_pos (l1:=[]) H). }
  rewrite Ea. cbn [rbind].
  pose proof (world_seg H) as Sg.
  destruct (stands_begin Sg) as (it0 & E0 & St0). rewrite E0, state_end_eq. cbn [rbind].
  destruct (merge_walk_ok alg x (fuel:=fuel) (l1:=[]) Sg St0) as (la & lb & it & -> & E & St & Fa & Fb);
    [lia|].
  cbn [app] in *. change (leave []) with null in E. rewrite E. cbn [rbind].
  rewrite (stands_eq Sg St).
  rewrite (merge_one_walk Fa Fb).
  destruct lb as [|[b y] lb]; cbn [negb].
  - destruct (merge_insert_ok fuel H) as (m' & h' & E' & H'). exists m', h', (la ++ [(a, x)]).
    split; [exact E'|]. split; [exact H'|]. split; [now rewrite map_app|].
    intros s Hs. apply in_app_or in Hs. destruct Hs as [Hs|[<-|[]]]; [right|now left].
    apply in_or_app. now left.
  - assert (Hc : si_curr it = b) by (rewrite St; reflexivity). rewrite Hc.
    rewrite (segment_pos Sg). cbn [rbind].
    assert (exists it1, match alg with STANDARD => Ok it | _ => iterator_next m it end = Ok it1)
      as (it1 & Eit).
    { destruct (stands_next Sg St) as (it1 & En & _). destruct alg; eexists; [reflexivity|exact En|exact En]. }
    rewrite Eit. cbn [rbind snd].
    destruct (merge_same alg x y); cbn [negb].
    + apply (world_perm (perm_swap _ _ _)) in H. rewrite loose_chain in H.
      destruct (world_delete (fuel:=fuel) H) as (m' & E' & H'); [cbn; lia|].
      rewrite E'. cbn [rbind]. exists m', h, (la ++ (b, y) :: lb). split; [reflexivity|].
      split; [exact H'|]. split; [now rewrite map_app|]. apply incl_tl, incl_refl.
    + destruct (merge_insert_ok fuel H) as (m' & h' & E' & H').
      exists m', h', (la ++ (a, x) :: (b, y) :: lb). split; [exact E'|]. split; [exact H'|].
      split; [now rewrite map_app|].
      intros s Hs. apply in_app_or in Hs. destruct Hs as [Hs|[<-|Hs]]; [right|now left|right].
      * apply in_or_app. now left.
      * apply in_or_app. now right.
Qed.

Lemma merge_one_length alg st x : (length (merge_one alg st x) <= length st + 1)%nat.
Proof.
  induction st as [|y st IH]; [cbn; lia|]. cbn [merge_one].
  destruct (merge_before alg x y); [cbn; lia|]. destruct (merge_same alg x y); cbn; lia.
Qed.

Lemma merge_all_ok alg base ps : forall m h l cs fuel,
  consists_of m base ((h, l, null) :: map loose ps ++ cs) ->
  (length l + length ps + 1 < fuel)%nat ->
  exists m' h' l', merge_all fuel alg m h (map fst ps) = Ok (m', h') /\
    consists_of m' base ((h', l', null) :: cs) /\
    map snd l' = merge alg (map snd l) (map snd ps) /\ incl l' (l ++ ps).
Proof.
  induction ps as [|[a x] ps IH]; intros m h l cs fuel H Hf.
  - exists m, h, l. split; [reflexivity|]. split; [exact H|]. split; [reflexivity|].
    rewrite app_nil_r. apply incl_refl.
  - cbn [map app fst merge_all] in *.
    destruct (merge_position_ok alg (fuel:=fuel) H) as (m1 & h1 & l1 & E1 & H1 & M1 & I1);
      [cbn in Hf; lia|].
    rewrite E1. cbn [rbind].
    assert (Hl1 : (length l1 <= length l + 1)%nat).
    { rewrite <- (map_length snd l1), M1, <- (map_length snd l). apply merge_one_length. }
    destruct (IH m1 h1 l1 cs fuel H1) as (m' & h' & l' & E' & H' & M' & I'); [cbn in Hf; lia|].
    exists m', h', l'. split; [exact E'|]. split; [exact H'|]. split.
    + rewrite M', M1. reflexivity.
    + intros s Hs. apply I' in Hs. apply in_app_or in Hs. destruct Hs as [Hs|Hs].
      * apply I1 in Hs. destruct Hs as [<-|Hs]; apply in_or_app; [right; now left|now left].
      * apply in_or_app. right. now right.
Qed.

(** ** unsubsume *)
Lemma NoDup_front {A} (l1 l2 : list A) : NoDup (l1 ++ l2) -> NoDup l1.
Proof.
  induction l1 as [|a l1 IH]; cbn; intros H; [constructor|]. inversion H; subst. constructor.
  - intros Hin. apply H2. apply in_or_app. now left.
  - now apply IH.
Qed.
Lemma NoDup_back {A} (l1 l2 : list A) : NoDup (l1 ++ l2) -> NoDup l2.
Proof. induction l1 as [|a l1 IH]; cbn; intros H; [exact H|]. inversion H; subst. now apply IH. Qed.

Lemma skip_walk_ok m h e fuel : forall l2 l1 it,
  segment m h (l1 ++ l2) null -> stands it l1 l2 -> (length l2 < fuel)%nat ->
  exists la lb it', l2 = la ++ lb /\
    skip_walk fuel m e it the_end = Ok it' /\ stands it' (l1 ++ la) lb /\
    Forall (fun s => (e <? ne (snd s))%N = false) la /\
    match lb with [] => True | s :: _ => (e <? ne (snd s))%N = true end.
Proof.
  induction fuel as [|fuel IH]; intros l2 l1 it H St Hf; [lia|]. cbn [skip_walk].
  rewrite (stands_eq H St). destruct l2 as [|[b y] l2]; cbn [negb].
  - exists [], [], it. rewrite !app_nil_r. repeat (split; [first [reflexivity|assumption|constructor]|]).
    exact I.
  - assert (Hc : si_curr it = b) by (rewrite St; reflexivity). rewrite Hc.
    rewrite (segment_pos H). cbn [rbind].
    destruct (e <? ne y)%N eqn:Eb.
    + exists [], ((b, y) :: l2), it. rewrite app_nil_r.
      split; [reflexivity|]. split; [reflexivity|]. split; [exact St|]. split; [constructor|exact Eb].
    + destruct (stands_next H St) as (it1 & E1 & St1). rewrite E1. cbn [rbind].
      change ((b, y) :: l2) with ([(b, y)] ++ l2) in H. rewrite app_assoc in H.
      destruct (IH l2 (l1 ++ [(b, y)]) it1 H St1) as (la & lb & it' & -> & E & St' & Fa & Fb);
        [cbn in Hf; lia|].
      rewrite <- app_assoc in St'.
      exists ((b, y) :: la), lb, it'. split; [reflexivity|]. split; [exact E|]. split; [exact St'|].
      split; [now constructor|exact Fb].
Qed.

Lemma remove_walk_ok alg n base x o l1 cs fuel : forall r k m h inner outer,
  consists_of m base ((h, l1 ++ (o, x) :: k ++ r, null) :: cs) ->
  stands outer l1 ((o, x) :: k ++ r) ->
  stands inner (l1 ++ (o, x) :: k) r -> (length r + 1 < fuel)%nat ->
  exists m' h' outer',
    remove_walk fuel alg n m h o outer inner the_end = Ok (m', h', outer') /\
    let r' := filter (fun s => negb (subsumes alg x (snd s) n)) r in
    consists_of m' base ((h', l1 ++ (o, x) :: k ++ r', null) :: cs) /\
    stands outer' l1 ((o, x) :: k ++ r').
Proof.
  induction fuel as [|fuel IH]; intros r k m h inner outer H So Si Hf; [lia|].
  cbn [remove_walk]. pose proof (world_seg H) as Sg.
  assert (Sg' : segment m h ((l1 ++ (o, x) :: k) ++ r) null) by (now rewrite <- app_assoc).
  rewrite (stands_eq Sg' Si). destruct r as [|[a y] r]; cbn [negb].
  - exists m, h, outer. split; [reflexivity|]. split; [exact H|exact So].
  - rewrite (segment_pos Sg). cbn [rbind].
    assert (Hc : si_curr inner = a) by (rewrite Si; reflexivity). rewrite Hc.
    rewrite (segment_pos Sg'). cbn [rbind filter snd].
    destruct (subsumes alg x y n) eqn:Es; cbn [negb].
    + assert (H0 : consists_of m base ((h, (l1 ++ (o, x) :: k) ++ (a, y) :: r, null) :: cs))
        by (now rewrite <- app_assoc).
      destruct (iterator_remove_ok (fuel:=S fuel) (Some outer) H0 ltac:(lia) Si)
        as (m1 & inner1 & E1 & H1 & G1).
      rewrite E1. cbn [rbind]. clear E1.
      pose proof (world_seg H1) as Sg1.
      destruct (gap_next Sg1 G1) as (inner2 & E2 & S2).
      set (o1 := if (si_next outer =? a)%N
                 then Some (Iterator (si_curr outer) (first_of r) (si_prev outer)) else Some outer).
      assert (exists outer1, o1 = Some outer1 /\ stands outer1 l1 ((o, x) :: k ++ r)) as (outer1 & Eo & So1).
      { unfold o1. rewrite So. cbn [si_next si_curr si_prev tl].
        destruct k as [|[b z] k].
        - cbn [app first_of fst]. rewrite N.eqb_refl. eexists. split; [reflexivity|]. reflexivity.
        - cbn [app first_of fst].
          assert (Hba : b <> a).
          { destruct H as (_ & ND & _). rewrite addresses_cons in ND. rewrite !map_app in ND.
            apply NoDup_front in ND. apply NoDup_back in ND.
            cbn [map fst] in ND. inversion ND as [|? ? _ ND']. subst.
            rewrite map_app in ND'. cbn in ND'. inversion ND' as [|? ? Hn _]. subst.
            intros ->. apply Hn. apply in_or_app. right. now left. }
          destruct (N.eqb_spec b a); [contradiction|]. eexists. split; [reflexivity|]. reflexivity. }
      rewrite Eo. cbn [deref rbind]. rewrite E2. cbn [rbind].
      rewrite <- app_assoc in H1. cbn [app] in H1.
      assert (Eh : enter ((l1 ++ (o, x) :: k) ++ r) null = enter (l1 ++ (o, x) :: k ++ r) null)
        by (now rewrite <- app_assoc).
      rewrite Eh.
      apply IH; [exact H1|exact So1|exact S2|cbn in Hf; lia].
    + destruct (stands_next Sg' Si) as (inner1 & E1 & S1). rewrite E1. cbn [rbind].
      rewrite <- app_assoc in S1. cbn [app] in S1.
      assert (Ek : forall r0, (o, x) :: k ++ (a, y) :: r0 = (o, x) :: (k ++ [(a, y)]) ++ r0)
        by (intros; now rewrite <- app_assoc).
      rewrite Ek in H, So.
      destruct (IH r (k ++ [(a, y)]) m h inner1 outer H So S1) as (m' & h' & outer' & E' & H' & So');
        [cbn in Hf; lia|].
      exists m', h', outer'. rewrite Ek. split; [exact E'|]. split; [exact H'|exact So'].
Qed.

Lemma skip_remove_walk alg n x la lb :
  Forall (fun s : stored => (ne x <? ne (snd s))%N = false) la ->
  match lb with [] => True | s :: _ => (ne x <? ne (snd s))%N = true end ->
  skip_remove alg n x (map snd (la ++ lb)) =
  map snd (la ++ filter (fun s => negb (subsumes alg x (snd s) n)) lb).
Proof.
  assert (Hfm : forall l : list stored, filter (fun p => negb (subsumes alg x p n)) (map snd l) =
    map snd (filter (fun s => negb (subsumes alg x (snd s) n)) l)).
  { induction l as [|s l IH]; [reflexivity|]. cbn. destruct (negb (subsumes alg x (snd s) n)); cbn; now rewrite IH. }
  intros Fa Fb. induction Fa as [|[a y] la Ha Fa IH]; cbn [map app snd].
  - destruct lb as [|[b z] lb]; [reflexivity|]. cbn [skip_remove map]. cbn [snd] in *. rewrite Fb.
    change (z :: map snd lb) with (map snd ((b, z) :: lb)). apply Hfm.
  - cbn [skip_remove snd] in *. rewrite Ha. now rewrite IH.
Qed.

Lemma filter_length_le {A} (f : A -> bool) l : (length (filter f l) <= length l)%nat.
Proof. induction l as [|a l IH]; [cbn; lia|]. cbn. destruct (f a); cbn; lia. Qed.

Lemma unsubsume_walk_ok alg n base cs fuel : forall l2 l1 m h outer,
  consists_of m base ((h, l1 ++ l2, null) :: cs) -> stands outer l1 l2 ->
  (length l2 + 1 < fuel)%nat ->
  exists m' h' l2', unsubsume_walk fuel alg n m h outer the_end = Ok (m', h') /\
    consists_of m' base ((h', l1 ++ l2', null) :: cs) /\
    (forall steps, (length l2 <= steps)%nat ->
       map snd l2' = unsubsume_steps steps alg n (map snd l2)) /\ incl l2' l2.
Proof.
  induction fuel as [|fuel IH]; intros l2 l1 m h outer H So Hf; [lia|].
  cbn [unsubsume_walk]. pose proof (world_seg H) as Sg.
  rewrite (stands_eq Sg So). destruct l2 as [|[o x] l2]; cbn [negb].
  - exists m, h, []. split; [reflexivity|]. split; [exact H|]. split; [|apply incl_refl].
    intros [|steps] _; reflexivity.
  - assert (Hc : si_curr outer = o) by (rewrite So; reflexivity). rewrite Hc.
    rewrite (segment_pos Sg). cbn [rbind].
    pose proof (proj1 (segment_get Sg)) as Ho.
    unfold new_iterator. destruct (N.eqb_spec o null); [contradiction|]. cbn [negb].
    rewrite (segment_next Sg). cbn [rbind].
    assert (Sg' : segment m h ((l1 ++ [(o, x)]) ++ l2) null) by (now rewrite <- app_assoc).
    rewrite (next_general o null Sg'). cbn [rbind].
    destruct (N.eqb_spec o null); [contradiction|].
    assert (Si : stands (Iterator (first_of l2) (first_of (tl l2)) o) (l1 ++ [(o, x)]) l2).
    { unfold stands. fold (leave (l1 ++ [(o, x)])). now rewrite leave_snoc. }
    cbn [length] in Hf.
    destruct (skip_walk_ok (ne x) (fuel:=S fuel) Sg' Si) as (la & lb & inner2 & El & E2 & S2 & Fa & Fb); [lia|].
    cbn [skip_walk] in E2 |- *. rewrite E2. cbn [rbind]. clear E2.
    subst l2. rewrite app_length in Hf. rewrite <- app_assoc in S2. cbn [app] in S2.
    destruct (@remove_walk_ok alg n base x o l1 cs (S fuel) lb la m h inner2 outer H So S2)
      as (m1 & h1 & outer1 & E3 & H3 & S3); [lia|].
    cbn [remove_walk] in E3 |- *. rewrite E3. cbn [rbind]. clear E3.
    set (l2' := la ++ filter (fun s => negb (subsumes alg x (snd s) n)) lb) in *.
    pose proof (world_seg H3) as Sg3.
    destruct (stands_next Sg3 S3) as (outer2 & E4 & S4). rewrite E4. cbn [rbind].
    assert (Ea : forall l0, l1 ++ (o, x) :: l0 = (l1 ++ [(o, x)]) ++ l0) by (intros; now rewrite <- app_assoc).
    rewrite Ea in H3.
    assert (Hl2' : (length l2' <= length la + length lb)%nat).
    { unfold l2'. rewrite app_length. pose proof (filter_length_le (fun s : stored => negb (subsumes alg x (snd s) n)) lb). lia. }
    destruct (IH _ _ _ _ _ H3 S4) as (m' & h' & l2'' & E' & H' & M' & I'); [lia|].
    exists m', h', ((o, x) :: l2''). split; [exact E'|]. rewrite Ea. split; [exact H'|]. split.
    + intros [|steps] Hs; [cbn in Hs; lia|]. cbn [map snd unsubsume_steps].
      rewrite (@skip_remove_walk alg n x la lb Fa Fb). fold l2'. f_equal. apply M'.
      cbn in Hs. rewrite app_length in Hs. lia.
    + intros s [<-|Hs]; [now left|right]. apply I' in Hs. unfold l2' in Hs.
      apply in_app_or in Hs. apply in_or_app. destruct Hs as [Hs|Hs]; [now left|right].
      now apply filter_In in Hs.
Qed.

Lemma unsubsume_pointers_ok alg n m base h l cs fuel :
  consists_of m base ((h, l, null) :: cs) -> (length l + 1 < fuel)%nat ->
  exists m' h' l', unsubsume_pointers fuel alg n m h = Ok (m', h') /\
    consists_of m' base ((h', l', null) :: cs) /\
    map snd l' = unsubsume alg n (map snd l) /\ incl l' l.
Proof.
  intros H Hf. unfold unsubsume_pointers.
  destruct (stands_begin (world_seg H)) as (it & E & St). rewrite E, state_end_eq. cbn [rbind].
  destruct (@unsubsume_walk_ok alg n base cs fuel l [] m h it H St Hf) as (m' & h' & l' & E' & H' & M' & I').
  exists m', h', l'. split; [exact E'|]. split; [exact H'|]. split; [|exact I'].
  unfold unsubsume. apply M'. rewrite map_length. lia.
Qed.

(** ** StateTransition *)
Lemma new_positions_ok alloc base xs : mallocator alloc -> forall m cs,
  consists_of m base cs ->
  exists m' ps, new_positions alloc m xs = (m', map fst ps) /\ map snd ps = xs /\
    consists_of m' base (map loose ps ++ cs).
Proof.
  intros HA. induction xs as [|x xs IH]; intros m cs H.
  - exists m, []. split; [reflexivity|]. split; [reflexivity|exact H].
  - cbn [new_positions]. destruct (world_new x HA H) as (a & m1 & E1 & _ & _ & H1). rewrite E1.
    destruct (IH m1 _ H1) as (m2 & ps & E2 & M2 & H2). rewrite E2.
    exists m2, ((a, x) :: ps). split; [reflexivity|]. split; [cbn; now rewrite M2|].
    cbn [map app]. apply (world_perm (Permutation_sym (Permutation_middle _ _ _))). exact H2.
Qed.

Lemma transition_length alg n p cv offset xs :
  position_transition alg n p cv offset = Ok xs -> (length xs <= 4)%nat.
Proof.
  destruct alg; cbn [position_transition];
    unfold transition_standard, transition_transposition, transition_merge_and_split; intros H;
    repeat match type of H with
    | context [if ?b then _ else _] => destruct b
    | context [rbind ?r _] => destruct r; cbn [rbind] in H
    | Ok _ = Ok _ => inversion H; subst; cbn; lia
    | _ => discriminate H
    end.
Qed.

(** What lies in [base] lies in every memory that extends it. *)
Lemma base_segment m base cs p l q :
  consists_of m base cs -> segment base p l q -> segment m p l q.
Proof.
  intros (_ & _ & B & F) S. apply (@segment_frame base); [|exact S].
  intros a Ha. apply F. intros Hin. apply B in Hin.
  apply in_map_iff in Ha. destruct Ha as ([a' x] & Ea & Ha). cbn in Ea. subst a'.
  apply in_split in Ha. destruct Ha as (l1 & l2 & ->).
  destruct (segment_get S) as [_ G]. congruence.
Qed.

Lemma transition_walk_ok alloc alg n cv offset base ch cs fuel : mallocator alloc ->
  forall l2 l1 m h l iter st,
  segment base ch (l1 ++ l2) null ->
  consists_of m base ((h, l, null) :: cs) -> stands iter l1 l2 ->
  merge_transitions alg n cv offset (map snd l2) (map snd l) = Ok st ->
  (length l + 5 * length l2 + 1 < fuel)%nat ->
  exists m' h' l', transition_walk fuel alloc alg n cv offset m h iter the_end = Ok (m', h') /\
    consists_of m' base ((h', l', null) :: cs) /\ map snd l' = st /\
    (length l' <= length l + 4 * length l2)%nat.
Proof.
  intros HA. induction fuel as [|fuel IH]; intros l2 l1 m h l iter st HB H St HT Hf; [lia|].
  cbn [transition_walk].
  pose proof (base_segment H HB) as Sg.
  rewrite (stands_eq Sg St). destruct l2 as [|[a x] l2]; cbn [negb].
  - cbn in HT. inversion HT; subst. exists m, h, l. split; [reflexivity|].
    split; [exact H|]. split; [reflexivity|]. lia.
  - assert (Hc : si_curr iter = a) by (rewrite St; reflexivity). rewrite Hc.
    unfold transition_pointers. rewrite (segment_pos Sg). cbn [rbind].
    cbn [map snd merge_transitions] in HT.
    destruct (position_transition alg n x cv offset) as [xs| |] eqn:Ex; cbn [rbind] in HT; try discriminate.
    cbn [rbind]. pose proof (transition_length Ex) as Hx.
    destruct (new_positions_ok xs HA H) as (m1 & ps & E1 & M1 & H1). rewrite E1.
    assert (H1' : consists_of m1 base ((h, l, null) :: map loose ps ++ cs)).
    { apply (world_perm (Permutation_sym (Permutation_middle _ _ _))). exact H1. }
    assert (Hps : length ps = length xs) by (now rewrite <- M1, map_length).
    cbn [length] in Hf.
    destruct (@merge_all_ok alg base ps m1 h l cs (S fuel) H1') as (m2 & h2 & l' & E2 & H2 & M2 & I2); [lia|].
    rewrite E2. cbn [rbind].
    assert (Hl' : (length l' <= length l + 4)%nat).
    { rewrite <- (map_length snd l'), M2. clear - Hps Hx. 
      assert (G : forall ys s, (length (merge alg s ys) <= length s + length ys)%nat).
      { induction ys as [|y ys IH]; intros s; [cbn; lia|].
        change (merge alg s (y :: ys)) with (merge alg (merge_one alg s y) ys).
        specialize (IH (merge_one alg s y)). pose proof (merge_one_length alg s y). cbn. lia. }
      specialize (G (map snd ps) (map snd l)). rewrite !map_length in G. lia. }
    pose proof (base_segment H2 HB) as Sg2.
    destruct (stands_next Sg2 St) as (it' & E3 & St3). rewrite E3. cbn [rbind].
    rewrite M1 in M2. rewrite <- M2 in HT.
    change ((a, x) :: l2) with ([(a, x)] ++ l2) in HB. rewrite app_assoc in HB.
    destruct (IH l2 (l1 ++ [(a, x)]) m2 h2 l' it' st HB H2 St3 HT) as (m' & h' & l'' & E' & H' & M' & L');
      [lia|].
    exists m', h', l''. split; [exact E'|]. split; [exact H'|]. split; [exact M'|].
    cbn [length]. lia.
Qed.

Lemma mget_mnew {A} (alloc : mem A -> ptr) m (x : A) : mallocator alloc ->
  exists p m', mnew alloc m x = (p, m') /\ p <> null /\ mget m p = None /\
    mget m' p = Some x /\ (forall q, q <> p -> mget m' q = mget m q) /\
    (forall q, mconst m' q = mconst m q).
Proof.
  intros HA. destruct (HA m) as [Hn Hf]. exists (alloc m), (mset m (alloc m) x).
  split; [reflexivity|]. split; [exact Hn|]. split; [exact Hf|].
  split; [apply mget_mset_same|]. split; [intros q Hq; apply mget_mset_other; congruence|].
  intros q. apply mconst_mset. now apply mconst_none.
Qed.

Lemma unsubsume_length alg n l : (length (unsubsume alg n l) <= length l)%nat.
Proof.
  unfold unsubsume. generalize (length l) at 1. intros k. revert l.
  assert (Hs : forall o l, (length (skip_remove alg n o l) <= length l)%nat).
  { intros o l. induction l as [|y l IH]; [cbn; lia|]. cbn [skip_remove].
    destruct (ne o <? ne y)%N; [|cbn; lia]. apply filter_length_le. }
  induction k as [|k IH]; intros [|o l]; cbn; try lia.
  specialize (IH (skip_remove alg n o l)). specialize (Hs o l). lia.
Qed.

Lemma state_transition_pointers_ok palloc salloc order alg n len base ss curr ch cl cv r fuel :
  mallocator palloc -> mallocator salloc ->
  curr <> null -> mget ss curr = Some ch -> segment base ch cl null ->
  state_transition alg n len (map snd cl) cv = Ok r ->
  (5 * length cl + 2 < fuel)%nat ->
  match r with
  | None => exists m' ss',
      state_transition_pointers fuel palloc salloc order alg n len base ss curr cv = Ok (m', ss', null) /\
      consists_of m' base [] /\ (forall p, mget ss' p = mget ss p) /\ (forall p, mconst ss' p = mconst ss p)
  | Some st => exists m' ss' s h l,
      state_transition_pointers fuel palloc salloc order alg n len base ss curr cv = Ok (m', ss', s) /\
      consists_of m' base [(h, l, null)] /\ map snd l = st /\
      s <> null /\ mget ss s = None /\ mget ss' s = Some h /\
      (forall p, p <> s -> mget ss' p = mget ss p) /\ (forall p, mconst ss' p = mconst ss p)
  end.
Proof.
  intros HP HS Hc Hch Sg HT Hf. unfold state_transition_pointers.
  rewrite (mread_ok Hc Hch). cbn [rbind].
  destruct cl as [|[a x] cl0] eqn:Ecl; [discriminate HT|]. rewrite <- Ecl in *.
  assert (Ep : get_pos base ch = Ok x).
  { pose proof Sg as Sg0. rewrite Ecl in Sg0. pose proof (segment_start Sg0) as E0. cbn in E0.
    rewrite E0. rewrite E0 in Sg0. exact (segment_pos (l1:=[]) Sg0). }
  rewrite Ep. cbn [rbind].
  destruct (mget_mnew ss null HS) as (s & ss1 & Es & Hs & Hs0 & Hs1 & Hsf & Hsc). rewrite Es.
  assert (C : mconst ss1 s = false) by (rewrite Hsc; now apply mconst_none).
  destruct (stands_begin Sg) as (it & Eit & St). rewrite Eit, state_end_eq. cbn [rbind].
  assert (H0 : consists_of base base [(null, [], null)]).
  { split; [|split; [constructor|split; [intros ? []|split; reflexivity]]].
    intros p l q [E|[]]. inversion E; subst. reflexivity. }
  rewrite Ecl in HT at 1. cbn [map snd state_transition] in HT.
  replace (x :: map snd cl0) with (map snd cl) in HT by (rewrite Ecl; reflexivity).
  destruct (merge_transitions alg n cv (ti x) (map snd cl) []) as [next| |] eqn:En;
    cbn [rbind] in HT; try discriminate.
  destruct (@transition_walk_ok palloc alg n cv (ti x) base ch [] fuel HP cl [] base null [] it next Sg H0 St En)
    as (m1 & h1 & l1 & E1 & H1 & M1 & L1); [cbn; lia|].
  rewrite E1. cbn [rbind]. cbn [length] in L1.
  destruct (@unsubsume_pointers_ok alg len m1 base h1 l1 [] fuel H1) as (m2 & h2 & l2 & E2 & H2 & M2 & _); [lia|].
  rewrite E2. cbn [rbind].
  assert (L2 : (length l2 <= length l1)%nat).
  { rewrite <- (map_length snd l2), M2, <- (map_length snd l1). apply unsubsume_length. }
  pose proof (world_start H2) as Eh2.
  rewrite <- M1, <- M2 in HT.
  destruct l2 as [|[b y] l2].
  - cbn in HT. inversion HT; subst r. cbn in Eh2. subst h2. rewrite N.eqb_refl. cbn [negb].
    destruct (@world_delete m2 base null [] [] fuel H2) as (m3 & E3 & H3); [cbn; lia|].
    unfold destroy_state. rewrite E3. cbn [rbind].
    unfold mfree. rewrite (mread_ok Hs Hs1). cbn [rbind]. rewrite C.
    exists m3, (mdel ss1 s). split; [reflexivity|]. split; [exact H3|].
    split; [|intros p; now rewrite mconst_mdel].
    intros p. destruct (N.eq_dec s p) as [<-|Hp].
    + now rewrite mget_mdel_same.
    + rewrite mget_mdel_other by exact Hp. apply Hsf. congruence.
  - cbn [map snd] in HT. 
    assert (Hh2 : h2 <> null).
    { rewrite Eh2. cbn. eapply (world_nonnull H2). now left. }
    destruct (N.eqb_spec h2 null); [contradiction|]. cbn [negb].
    destruct (@state_sort_ok order (compare alg) m2 base h2 ((b, y) :: l2) [] fuel H2)
      as (m3 & h3 & l3 & E3 & H3 & _ & M3); [lia|].
    rewrite E3. cbn [rbind map snd] in *. rewrite M3 in HT. cbn [rbind] in HT. inversion HT; subst r.
    unfold mwrite. rewrite (mread_ok Hs Hs1). cbn [rbind]. rewrite C.
    exists m3, (mset ss1 s h3), s, h3, l3. split; [reflexivity|]. split; [exact H3|].
    split; [reflexivity|]. split; [exact Hs|]. split; [exact Hs0|]. split; [apply mget_mset_same|].
    split; [|intros p; now rewrite mconst_mset].
    intros p Hp. rewrite mget_mset_other by congruence. now apply Hsf.
Qed.

Lemma distance_walk_ok alg len m h fuel : forall l2 l1 iter min,
  segment m h (l1 ++ l2) null -> stands iter l1 l2 -> (length l2 < fuel)%nat ->
  distance_walk fuel alg len m iter the_end min = Ok (distance_loop alg len (map snd l2) min).
Proof.
  induction fuel as [|fuel IH]; intros l2 l1 iter min Sg St Hf; [lia|]. cbn [distance_walk].
  rewrite (stands_eq Sg St). destruct l2 as [|[a x] l2]; cbn [negb]; [reflexivity|].
  assert (Hc : si_curr iter = a) by (rewrite St; reflexivity). rewrite Hc.
  rewrite (segment_pos Sg). cbn [rbind].
  destruct (stands_next Sg St) as (it' & E & St'). rewrite E. cbn [rbind].
  change ((a, x) :: l2) with ([(a, x)] ++ l2) in Sg. rewrite app_assoc in Sg.
  rewrite (IH l2 (l1 ++ [(a, x)]) it' _ Sg St') by (cbn in Hf; lia). reflexivity.
Qed.

Lemma distance_pointers_ok alg len m h l fuel :
  segment m h l null -> (length l < fuel)%nat ->
  distance_pointers fuel alg m h len = Ok (distance alg (map snd l) len).
Proof.
  intros Sg Hf. unfold distance_pointers, distance.
  destruct (stands_begin Sg) as (it & E & St). rewrite E, state_end_eq. cbn [rbind].
  exact (@distance_walk_ok alg len m h fuel l [] it SIZE_MAX Sg St Hf).
Qed.
