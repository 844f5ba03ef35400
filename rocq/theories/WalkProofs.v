(** * WalkProofs: programs that use a State. *)
From Coq Require Import Permutation.
From Verif Require Import Base Spec ModelTransducer ModelDawg ModelState SpecState PointerProofs.
Set Implicit Arguments. Unset Strict Implicit.

Lemma position_at_ok m l2 : forall p l1 a x q,
  segment m p (l1 ++ (a, x) :: l2) q -> position_at m p (length l1) = Ok a.
Proof.
  intros p l1. revert p. induction l1 as [|[b y] l1 IH]; intros p a x q H.
  - cbn in H. destruct H as (-> & _). reflexivity.
  - cbn [app] in H. cbn [length position_at].
    destruct H as (-> & Hb & n & G & H). rewrite (get_next_ok Hb G). cbn [rbind].
    exact (IH n a x q H).
Qed.

Lemma split_at {A} (l : list A) k : (k < length l)%nat ->
  exists l1 x l2, l = l1 ++ x :: l2 /\ length l1 = k.
Proof.
  revert k. induction l as [|y l IH]; intros k H; [cbn in H; lia|]. destruct k as [|k].
  - exists [], y, l. split; reflexivity.
  - destruct (IH k) as (l1 & x & l2 & -> & E); [cbn in H; lia|].
    exists (y :: l1), x, l2. split; [reflexivity|]. cbn. now rewrite E.
Qed.

Lemma firstn_exact {A} (l1 l2 : list A) : firstn (length l1) (l1 ++ l2) = l1.
Proof. rewrite firstn_app, Nat.sub_diag, firstn_all. cbn. apply app_nil_r. Qed.
Lemma skipn_exact {A} (l1 l2 : list A) : skipn (length l1) (l1 ++ l2) = l2.
Proof. rewrite skipn_app, Nat.sub_diag, skipn_all. reflexivity. Qed.

Lemma some_eq {A} (a b : A) : Some a = Some b -> a = b.
Proof. congruence. Qed.

Lemma perform_ok alloc order op m base h l l' fuel : mallocator alloc ->
  has_state m base h l -> effect op (map snd l) = Some l' -> (length l + 2 < fuel)%nat ->
  exists m' h' k, perform fuel alloc order op m h = Ok (m', h') /\
    has_state m' base h' k /\ map snd k = l' /\ (length k <= length l + 1)%nat.
Proof.
  intros HA H HE Hf. unfold has_state in *. destruct op as [x|x|k x|k|alg]; cbn [effect perform] in *.
  - inversion HE; subst. destruct (world_new x HA H) as (a & m1 & E1 & _ & _ & H1).
    unfold new_position. unfold new_position in E1. rewrite E1.
    apply (world_perm (perm_swap _ _ _)) in H1. 
    destruct (@state_add_ok m1 base h l a (a, x) [] [] fuel H1) as (m2 & E2 & H2); [lia|].
    rewrite E2. eexists _, _, _. split; [reflexivity|]. split; [exact H2|].
    rewrite map_app, app_length. split; [reflexivity|]. cbn. lia.
  - inversion HE; subst. destruct (world_new x HA H) as (a & m1 & E1 & _ & _ & H1).
    unfold new_position. unfold new_position in E1. rewrite E1.
    apply (world_perm (perm_swap _ _ _)) in H1.
    destruct (@state_head_ok m1 base h l a a x null [] H1) as (m2 & E2 & H2).
    rewrite E2. eexists _, _, _. split; [reflexivity|]. split; [exact H2|].
    split; [reflexivity|]. cbn. lia.
  - destruct (Nat.ltb_spec k (length (map snd l))) as [Hk|]; [|discriminate]. apply some_eq in HE. subst l'.
    rewrite map_length in Hk. destruct (split_at Hk) as (l1 & [c y] & l2 & -> & Ek).
    pose proof (world_seg H) as Sg. rewrite <- Ek, (position_at_ok Sg). cbn [rbind].
    destruct (world_new x HA H) as (a & m1 & E1 & _ & _ & H1).
    unfold new_position. unfold new_position in E1. rewrite E1.
    apply (world_perm (perm_swap _ _ _)) in H1.
    destruct (@insert_after_ok m1 base h l1 c y l2 a a x null [] fuel H1) as (m2 & E2 & H2).
    rewrite E2. eexists _, _, _. split; [reflexivity|]. split; [exact H2|].
    change ((c, y) :: (a, x) :: l2) with ([(c, y)] ++ (a, x) :: l2).
    change ((c, y) :: l2) with ([(c, y)] ++ l2). rewrite !app_assoc, !map_app, !app_length.
    replace (S (length l1)) with (length (map snd l1 ++ map snd [(c, y)]))
      by (rewrite app_length, !map_length; cbn; lia).
    rewrite firstn_exact, skipn_exact. split; [reflexivity|]. cbn. lia.
  - destruct (Nat.ltb_spec k (length (map snd l))) as [Hk|]; [|discriminate]. apply some_eq in HE. subst l'.
    rewrite map_length in Hk. destruct (split_at Hk) as (l1 & [c y] & l2 & -> & Ek).
    pose proof (world_seg H) as Sg. rewrite <- Ek, (position_at_ok Sg). cbn [rbind].
    assert (Eb : match length l1 with O => Ok null | S k' => position_at m h k' end = Ok (leave l1)).
    { destruct l1 as [|s l1] using rev_ind; [reflexivity|]. clear IHl1.
      rewrite app_length, Nat.add_1_r. destruct s as [b z]. rewrite leave_snoc.
      rewrite <- app_assoc in Sg. cbn [app] in Sg. exact (position_at_ok Sg). }
    rewrite Eb. cbn [rbind].
    destruct (@state_remove_ok m base h l1 c y l2 [] fuel H) as (m2 & E2 & H2); [lia|].
    rewrite E2. eexists _, _, _. split; [reflexivity|]. split; [exact H2|].
    rewrite map_app, !app_length. cbn [map snd length]. split; [|lia].
    rewrite map_app. cbn [map snd].
    replace (S (length l1)) with (length (map snd l1 ++ [y])) at 1
      by (rewrite app_length, !map_length; cbn; lia).
    replace (length l1) with (length (map snd l1)) by apply map_length.
    rewrite firstn_exact. change (y :: map snd l2) with ([y] ++ map snd l2).
    now rewrite app_assoc, skipn_exact.
  - destruct (@state_sort_ok order (compare alg) m base h l [] fuel H) as (m2 & h2 & k & E2 & H2 & P & S);
      [lia|].
    rewrite S in HE. inversion HE; subst l'. exists m2, h2, k. split; [exact E2|]. split; [exact H2|].
    split; [reflexivity|]. rewrite (Permutation_length P). lia.
Qed.

Lemma performs_ok alloc order base fuel ops : mallocator alloc -> forall m h l l',
  has_state m base h l -> effects ops (map snd l) = Some l' ->
  (length l + length ops + 2 < fuel)%nat ->
  exists m' h' k, performs fuel alloc order ops m h = Ok (m', h') /\
    has_state m' base h' k /\ map snd k = l'.
Proof.
  intros HA. induction ops as [|op ops IH]; intros m h l l' H HE Hf.
  - cbn in HE. inversion HE. exists m, h, l. split; [reflexivity|]. split; [exact H|reflexivity].
  - cbn [effects performs length] in *.
    destruct (effect op (map snd l)) as [l1|] eqn:E; [|discriminate].
    destruct (@perform_ok alloc order op m base h l l1 fuel HA H E) as (m1 & h1 & k & E1 & H1 & M1 & L1); [lia|].
    rewrite E1. cbn [rbind]. rewrite <- M1 in HE. apply (IH m1 h1 k l' H1 HE). lia.
Qed.

(** ** Iterators *)
Definition head_of (o : option stored) : ptr := match o with Some s => fst s | None => null end.
Definition here (o : option stored) : list stored := match o with Some s => [s] | None => [] end.
Definition holds (it : iterator) (l1 : list stored) (cur : option stored) (l2 : list stored) : Prop :=
  it = Iterator (head_of cur) (first_of l2) (leave l1).
Definition plain (l1 : list stored) (cur : option stored) (l2 : list stored) : cursor :=
  (map snd l1, option_map snd cur, map snd l2).

Lemma sequence_plain l1 cur l2 : sequence (plain l1 cur l2) = map snd (l1 ++ here cur ++ l2).
Proof. unfold plain. destruct cur as [s|]; cbn; now rewrite map_app. Qed.

Lemma move_ok alloc s m base h it l1 cur l2 c' fuel : mallocator alloc ->
  has_state m base h (l1 ++ here cur ++ l2) -> holds it l1 cur l2 ->
  walk_one s (plain l1 cur l2) = Some c' -> (2 < fuel)%nat ->
  exists m' h' it' k1 cur' k2, move fuel alloc s m h it = Ok (m', h', it') /\
    has_state m' base h' (k1 ++ here cur' ++ k2) /\ holds it' k1 cur' k2 /\ plain k1 cur' k2 = c'.
Proof.
  intros HA H Hh HW Hf. unfold has_state in *. pose proof (world_seg H) as Sg.
  destruct s as [|x|]; cbn [walk_one plain move] in *.
  - inversion HW; subst c'. clear HW. rewrite Hh.
    assert (Sg' : segment m h ((l1 ++ here cur) ++ l2) null) by (now rewrite <- app_assoc).
    rewrite (next_general (head_of cur) (leave l1) Sg'). cbn [rbind].
    assert (El : (if N.eqb (head_of cur) null then leave l1 else head_of cur) = leave (l1 ++ here cur)).
    { destruct cur as [[a x]|]; cbn [head_of here fst]; [|now rewrite app_nil_r].
      rewrite leave_snoc. destruct (N.eqb_spec a null) as [->|]; [|reflexivity].
      exfalso. eapply (@world_nonnull m base h (l1 ++ here (Some (null, x)) ++ l2) null x null []);
        [exact H|apply in_or_app; right; now left|reflexivity]. }
    rewrite El.
    exists m, h, (Iterator (first_of l2) (first_of (tl l2)) (leave (l1 ++ here cur))), (l1 ++ here cur),
      (hd_error l2), (tl l2).
    split; [reflexivity|].
    assert (Eh : here (hd_error l2) ++ tl l2 = l2) by (destruct l2; reflexivity).
    split; [now rewrite Eh, <- app_assoc|].
    split; [destruct l2; reflexivity|].
    unfold plain. rewrite map_app. destruct cur as [[a x]|], l2 as [|[b y] l2]; cbn;
      rewrite ?app_nil_r; reflexivity.
  - destruct cur as [[b y]|]; cbn [option_map] in HW; [|discriminate]. inversion HW; subst c'. clear HW.
    cbn [here app] in *.
    destruct (world_new x HA H) as (a & m1 & E1 & _ & _ & H1).
    unfold new_position. unfold new_position in E1. rewrite E1.
    apply (world_perm (perm_swap _ _ _)) in H1.
    assert (St : stands it l1 ((b, y) :: l2)) by exact Hh.
    destruct (@iterator_insert_ok m1 base h it l1 b y l2 a a x null [] fuel H1 St)
      as (m2 & it2 & E2 & H2 & St2).
    rewrite E2. exists m2, h, it2, l1, (Some (b, y)), ((a, x) :: l2).
    split; [reflexivity|]. split; [exact H2|]. split; [exact St2|reflexivity].
  - inversion HW; subst c'. clear HW. destruct cur as [[b y]|]; cbn [here app] in *.
    + assert (St : stands it l1 ((b, y) :: l2)) by exact Hh.
      destruct (@iterator_remove_ok m base h it None l1 b y l2 [] fuel H) as (m2 & it2 & E2 & H2 & G2);
        [lia|exact St|].
      rewrite E2. cbn [rbind]. exists m2, (enter (l1 ++ l2) null), it2, l1, None, l2.
      split; [reflexivity|]. split; [exact H2|]. split; [exact G2|reflexivity].
    + rewrite Hh. unfold iterator_remove. cbn [head_of si_curr]. rewrite N.eqb_refl. cbn [negb rbind].
      exists m, h, (Iterator null (first_of l2) (leave l1)), l1, None, l2.
      split; [reflexivity|]. split; [exact H|]. split; reflexivity.
Qed.

Lemma moves_ok alloc base fuel ss : mallocator alloc -> (2 < fuel)%nat -> forall m h it l1 cur l2 c',
  has_state m base h (l1 ++ here cur ++ l2) -> holds it l1 cur l2 ->
  walk ss (plain l1 cur l2) = Some c' ->
  exists m' h' it' k1 cur' k2, moves fuel alloc ss m h it = Ok (m', h', it') /\
    has_state m' base h' (k1 ++ here cur' ++ k2) /\ holds it' k1 cur' k2 /\ plain k1 cur' k2 = c'.
Proof.
  intros HA Hf. induction ss as [|s ss IH]; intros m h it l1 cur l2 c' H Hh HW.
  - cbn in HW. inversion HW; subst. exists m, h, it, l1, cur, l2. split; [reflexivity|]. split; [exact H|]. split; [exact Hh|reflexivity].
  - cbn [walk moves] in *. destruct (walk_one s (plain l1 cur l2)) as [c1|] eqn:E; [|discriminate].
    destruct (@move_ok alloc s m base h it l1 cur l2 c1 fuel HA H Hh E Hf)
      as (m1 & h1 & it1 & k1 & cur1 & k2 & E1 & H1 & Hh1 & P1).
    rewrite E1. cbn [rbind]. rewrite <- P1 in HW. exact (IH m1 h1 it1 k1 cur1 k2 c' H1 Hh1 HW).
Qed.

Lemma current_ok m base h it l1 cur l2 :
  has_state m base h (l1 ++ here cur ++ l2) -> holds it l1 cur l2 ->
  current m it = option_map snd cur.
Proof.
  intros H ->. unfold current. cbn [si_curr]. destruct cur as [[a x]|]; cbn [head_of fst].
  - pose proof (world_seg H) as Sg. cbn [here app] in Sg. destruct (segment_get Sg) as [Ha G].
    destruct (N.eqb_spec a null); [contradiction|]. rewrite G. reflexivity.
  - reflexivity.
Qed.
