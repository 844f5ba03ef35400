(** * TestsState: the tests about positions and states pass. *)
From Coq Require Import Permutation Sorted.
From Verif Require Import Base Spec ModelDistance ModelTransducer ModelDawg ModelState SpecState SpecTransducer.
From Verif Require Import PointerProofs StateProofs PropsTransducer ModelTests.
Set Implicit Arguments.
Unset Strict Implicit.
Local Open Scope nat_scope.

(** What is left at the end is what was there at the beginning. *)
Definition leaves (base : positions) (r : res (verdict positions)) : Prop :=
  exists m, r = Ok (Passed m) /\ forall p, mget m p = mget base p.

Lemma consists_start base : consists_of base base [].
Proof. split; [intros ? ? ? []|]. split; [constructor|]. split; [intros ? []|split; reflexivity]. Qed.

Lemma made alloc base xs : mallocator alloc ->
  exists m ps, new_positions alloc base xs = (m, map fst ps) /\ map snd ps = xs /\
    consists_of m base ((null, [], null) :: map loose ps).
Proof.
  intros HA. destruct (new_positions_ok xs HA (consists_start base)) as (m & ps & E & M & H).
  exists m, ps. split; [exact E|]. split; [exact M|]. rewrite app_nil_r in H. now apply world_add_empty.
Qed.

Lemma deleted base m head l fuel : consists_of m base [(head, l, null)] -> length l < fuel ->
  leaves base (delete_state fuel m head).
Proof.
  intros H Hf. unfold delete_state, destroy_state. destruct (world_delete H Hf) as (m' & -> & H').
  exists m'. split; [reflexivity|]. destruct H' as (_ & _ & _ & F & _). intros p. apply F. intros [].
Qed.

Lemma expect_ok m l q : forall head, segment m head l q -> expect_positions m (map fst l) head = Ok (Passed q).
Proof.
  induction l as [|[a x] l IH]; intros head S.
  - cbn in *. now subst.
  - destruct S as (-> & Ha & n & G & S). cbn [map expect_positions]. cbn [fst]. rewrite N.eqb_refl. unfold RC_ASSERT.
    rewrite (get_next_ok Ha G). cbn [rbind]. now apply IH.
Qed.

Lemma stated alloc base xs fuel : mallocator alloc -> length xs <= fuel ->
  exists m ps m2, new_positions alloc base xs = (m, map fst ps) /\ map snd ps = xs /\
    state_of fuel m (map fst ps) = Ok (m2, enter ps null) /\
    consists_of m2 base [(enter ps null, ps, null)].
Proof.
  intros HA Hf. destruct (made base xs HA) as (m & ps & E & M & H).
  rewrite <- (app_nil_r (map loose ps)) in H.
  destruct (state_of_loop_ok (l' := ps) (l := []) (fuel := fuel) H) as (m2 & E2 & H2).
  { cbn. rewrite <- M, map_length in Hf. exact Hf. }
  exists m, ps, m2. auto.
Qed.

Lemma initializes_ok alloc base xs fuel : mallocator alloc -> length xs < fuel ->
  leaves base (initializes_positions_correctly fuel alloc base xs).
Proof.
  intros HA Hf. destruct (stated base (xs := xs) (fuel := fuel) HA ltac:(lia)) as (m & ps & m2 & E & M & E2 & H).
  unfold initializes_positions_correctly. rewrite E, E2. cbn [rbind].
  rewrite (expect_ok (world_seg H)). cbn [followed_by rbind]. apply (deleted H).
  rewrite <- M, map_length in Hf. exact Hf.
Qed.

Lemma in_order_ok alg m : forall l fuel a x q, segment m a ((a, x) :: l) q -> q = null ->
  StronglySorted (position_le alg) (x :: map snd l) -> length l < fuel ->
  in_order fuel alg m a (enter l null) = Ok (Passed tt).
Proof.
  induction l as [|[b y] l IH]; intros fuel a x q S -> So Hf; (destruct fuel as [|fuel]; [cbn in Hf; lia|]); [reflexivity|].
  cbn [in_order enter fst].
  destruct S as (_ & Ha & n & G & S). pose proof S as (-> & Hb & n' & G' & S').
  destruct (N.eqb_spec b null); [contradiction|]. rewrite (get_pos_ok Ha G), (get_pos_ok Hb G'). cbn [rbind].
  cbn [map snd] in So. inversion So as [|? ? So' Fo]; subst. inversion Fo as [|? ? Le _]; subst.
  assert (C : (compare alg x y <? 1)%Z = true).
  { apply Z.ltb_lt. apply (proj2 (proj2 (proj2 (C45_compare alg)))) in Le. lia. }
  rewrite C. unfold RC_ASSERT. rewrite (get_next_ok Hb G'). cbn [rbind].
  pose proof (segment_start' S') as En. rewrite En. eapply IH; [exact S|reflexivity|exact So'|cbn in Hf; lia].
Qed.

Lemma sorts_once_ok order alg m base head l fuel : consists_of m base [(head, l, null)] -> l <> [] -> length l < fuel ->
  exists m' l', sorts_once fuel order alg m head = Ok (Passed (m', enter l' null)) /\
    consists_of m' base [(enter l' null, l', null)] /\ length l' = length l.
Proof.
  intros H Hn Hf. unfold sorts_once. destruct (state_sort_ok order (compare alg) H Hf) as (m' & h' & l' & E & H' & P & So).
  rewrite E. cbn [rbind]. pose proof (Permutation_length P) as Le. pose proof (world_start H') as ->.
  destruct l' as [|[a x] l']. { apply Permutation_nil in P. congruence. }
  pose proof (world_seg H') as Sg. pose proof Sg as (_ & Ha & n & G & Sg'). cbn [enter fst] in *.
  destruct (N.eqb_spec a null); [contradiction|]. cbn [negb]. unfold RC_ASSERT at 1. rewrite (get_next_ok Ha G). cbn [rbind].
  rewrite (segment_start' Sg').
  assert (So' : StronglySorted (position_le alg) (map snd ((a, x) :: l'))).
  { destruct (C41_sort alg (map snd l)) as (s & Es & _ & SS & _). rewrite So in Es. injection Es as Es. now subst s. }
  rewrite (in_order_ok (alg := alg) Sg eq_refl So') by (cbn in Le; lia). cbn [followed_by rbind].
  exists m', ((a, x) :: l'). auto.
Qed.

Lemma sorts_ok alloc order base xs fuel : mallocator alloc -> length xs < fuel ->
  leaves base (sorts_positions_correctly fuel alloc order base xs).
Proof.
  intros HA Hf. unfold sorts_positions_correctly. destruct xs as [|x xs]. { exists base. auto. }
  destruct (stated base (xs := x :: xs) (fuel := fuel) HA ltac:(lia)) as (m & ps & m2 & E & M & E2 & H).
  rewrite E, E2. cbn [rbind]. assert (Lp : length ps = length (x :: xs)) by (rewrite <- M, map_length; reflexivity).
  assert (Np : ps <> []) by (destruct ps; discriminate).
  destruct (sorts_once_ok (fuel := fuel) order STANDARD H Np ltac:(lia)) as (m3 & l3 & E3 & H3 & L3).
  rewrite E3. cbn [followed_by rbind].
  destruct (sorts_once_ok (fuel := fuel) order TRANSPOSITION H3) as (m4 & l4 & E4 & H4 & L4); [destruct l3; [cbn in *; lia|discriminate]|lia|].
  rewrite E4. cbn [followed_by rbind].
  destruct (sorts_once_ok (fuel := fuel) order MERGE_AND_SPLIT H4) as (m5 & l5 & E5 & H5 & L5); [destruct l4; [cbn in *; lia|discriminate]|lia|].
  rewrite E5. cbn [followed_by rbind]. apply (deleted H5). lia.
Qed.

Lemma adds_loop_ok fuel base : forall ps m head l, consists_of m base ((head, l, null) :: map loose ps) ->
  length l + length ps <= fuel ->
  exists m', adds_loop fuel m head (map fst l) (map fst ps) = Ok (Passed (m', enter (l ++ ps) null)) /\
    consists_of m' base [(enter (l ++ ps) null, l ++ ps, null)].
Proof.
  induction ps as [|[a x] ps IH]; intros m head l H Hf.
  - rewrite app_nil_r. pose proof (world_start H) as ->. exists m. auto.
  - cbn [map adds_loop]. cbn [map] in H. rewrite loose_chain in H.
    destruct (state_add_ok (fuel := fuel) H) as (m1 & E1 & H1); [lia|]. cbn [fst] in *. rewrite E1. cbn [rbind].
    change [a] with (map fst [(a, x)]). rewrite <- map_app. rewrite (expect_ok (world_seg H1)). cbn [followed_by rbind].
    destruct (IH _ _ _ H1) as (m' & E & H'). { rewrite app_length. cbn in *. lia. }
    rewrite E. rewrite <- app_assoc in *. exists m'. auto.
Qed.

Lemma adds_ok alloc base xs fuel : mallocator alloc -> length xs < fuel ->
  leaves base (adds_to_tail_of_positions fuel alloc base xs).
Proof.
  intros HA Hf. destruct (made base xs HA) as (m & ps & E & M & H). unfold adds_to_tail_of_positions. rewrite E.
  assert (Lp : length ps = length xs) by (rewrite <- M, map_length; reflexivity).
  destruct (adds_loop_ok (fuel := fuel) H) as (m' & E' & H'); [cbn; lia|]. cbn [map app] in *.
  rewrite E'. cbn [followed_by rbind]. apply (deleted H'). lia.
Qed.

(** Inserting the positions one after the other, with either function. *)
Lemma inserts_loop_ok insert base :
  (forall m head l a x cs, consists_of m base ((head, l, null) :: loose (a, x) :: cs) ->
     exists m', insert m head (leave l) a = Ok (m', enter (l ++ [(a, x)]) null) /\
       consists_of m' base ((enter (l ++ [(a, x)]) null, l ++ [(a, x)], null) :: cs)) ->
  forall ps m head l, consists_of m base ((head, l, null) :: map loose ps) ->
  exists m', inserts_loop insert m head (leave l) (map fst ps) = Ok (m', enter (l ++ ps) null) /\
    consists_of m' base [(enter (l ++ ps) null, l ++ ps, null)].
Proof.
  intros HI. induction ps as [|[a x] ps IH]; intros m head l H.
  - rewrite app_nil_r. pose proof (world_start H) as ->. exists m. auto.
  - cbn [map inserts_loop fst]. destruct (HI _ _ _ _ _ _ H) as (m1 & E1 & H1). rewrite E1. cbn [rbind].
    destruct (IH _ _ _ H1) as (m' & E' & H'). rewrite leave_snoc in E'. rewrite E'. rewrite <- app_assoc in *. exists m'. auto.
Qed.

Lemma inserts_ok alloc base xs fuel : mallocator alloc -> length xs < fuel ->
  leaves base (correctly_inserts_positions_after_others fuel alloc base xs).
Proof.
  intros HA Hf. destruct (made base xs HA) as (m & ps & E & M & H). unfold correctly_inserts_positions_after_others. rewrite E.
  assert (Lp : length ps = length xs) by (rewrite <- M, map_length; reflexivity).
  assert (Sl : forall m head curr l, inserts_loop (state_insert_after fuel) m head curr l = state_of_loop fuel m head curr l).
  { clear. intros m head curr l. revert m head curr. induction l as [|p l IH]; intros m head curr; cbn [inserts_loop state_of_loop]; [reflexivity|].
    destruct (state_insert_after fuel m head curr p) as [[m1 h1]| |]; cbn [rbind]; auto. }
  rewrite Sl. rewrite <- (app_nil_r (map loose ps)) in H.
  destruct (state_of_loop_ok (l' := ps) (l := []) (fuel := fuel) H) as (m2 & E2 & H2); [cbn; lia|].
  cbn [leave last fst app] in *. rewrite E2. cbn [rbind].
  rewrite (expect_ok (world_seg H2)). cbn [followed_by rbind]. apply (deleted H2). lia.
Qed.

Lemma merge_inserts_ok alloc base xs fuel : mallocator alloc -> length xs < fuel ->
  leaves base (inserts_positions_in_the_expected_location fuel alloc base xs).
Proof.
  intros HA Hf. destruct (made base xs HA) as (m & ps & E & M & H). unfold inserts_positions_in_the_expected_location. rewrite E.
  assert (Lp : length ps = length xs) by (rewrite <- M, map_length; reflexivity).
  destruct (inserts_loop_ok (insert := insert_after fuel) (base := base)) with (ps := ps) (m := m) (head := null) (l := @nil stored)
    as (m2 & E2 & H2); [|exact H|].
  { intros m0 head l a x cs H0. rewrite <- (app_nil_r l) in H0.
    destruct (merge_insert_ok (la := l) (lb := []) fuel H0) as (m' & h' & E' & H'). exists m'.
    pose proof (world_start H') as <-. auto. }
  cbn [leave last fst app] in *. rewrite E2. cbn [rbind].
  rewrite (expect_ok (world_seg H2)). cbn [followed_by rbind]. apply (deleted H2). lia.
Qed.

Lemma removes_ok alloc base xs fuel : mallocator alloc -> length xs + 2 < fuel ->
  leaves base (correctly_removes_positions fuel alloc base xs).
Proof.
  intros HA Hf. unfold correctly_removes_positions. destruct (Nat.ltb_spec 2 (length xs)) as [L|L]; cbn [negb]; [|exists base; auto].
  destruct (stated base (xs := xs) (fuel := fuel) HA ltac:(lia)) as (m & ps & m2 & E & M & E2 & H).
  assert (Lp : length ps = length xs) by (rewrite <- M, map_length; reflexivity).
  rewrite E, E2. cbn [rbind].
  destruct ps as [|[a0 x0] [|[a1 x1] [|[a2 x2] ps]]]; try (cbn in Lp; lia).
  destruct (state_remove_ok (l1 := []) (fuel := fuel) H) as (m3 & E3 & H3); [lia|]. cbn [leave last fst app enter] in *.
  rewrite E3. cbn [rbind map nth_error deref fst]. rewrite N.eqb_refl. unfold RC_ASSERT at 1.
  rewrite (world_next (l1 := []) H3). cbn [rbind enter fst].
  destruct (state_remove_ok (l1 := [(a1, x1)]) (fuel := fuel) H3) as (m4 & E4 & H4); [lia|]. cbn [leave last fst app enter] in *.
  rewrite E4. cbn [rbind]. rewrite N.eqb_refl. unfold RC_ASSERT at 1. rewrite (world_next (l1 := []) H4). cbn [rbind].
  cbn [length]. rewrite map_length. destruct ps as [|[a3 x3] ps].
  - cbn [length Nat.ltb Nat.leb enter]. unfold RC_ASSERT. cbn. apply (deleted H4). cbn in *; lia.
  - cbn [length map nth_error deref rbind fst enter]. replace (Nat.ltb 3 _) with true by (symmetry; apply Nat.ltb_lt; lia).
    rewrite N.eqb_refl. unfold RC_ASSERT. apply (deleted H4). cbn in *; lia.
Qed.

Lemma iterates_loop_ok m h : forall l2 l1 it, segment m h (l1 ++ l2) null -> stands it l1 l2 ->
  exists it', iterates_loop m it (map fst l2) = Ok (Passed it') /\ stands it' (l1 ++ l2) [].
Proof.
  induction l2 as [|[a x] l2 IH]; intros l1 it Sg St.
  - rewrite app_nil_r. exists it. auto.
  - destruct (stands_next Sg St) as (it1 & E1 & St1). cbn [map iterates_loop fst].
    assert (C : si_curr it = a) by (rewrite St; reflexivity). rewrite C, N.eqb_refl. unfold RC_ASSERT. rewrite E1. cbn [rbind].
    change ((a, x) :: l2) with ([(a, x)] ++ l2) in *. rewrite app_assoc in *. now apply IH.
Qed.

Lemma iterates_ok alloc base xs fuel : mallocator alloc -> length xs + 3 < fuel ->
  leaves base (iterates_over_positions fuel alloc base xs).
Proof.
  intros HA Hf. unfold iterates_over_positions.
  destruct (stated base (xs := xs) (fuel := fuel) HA ltac:(lia)) as (m & ps & m2 & E & M & E2 & H).
  assert (Lp : length ps = length xs) by (rewrite <- M, map_length; reflexivity).
  rewrite E, E2. cbn [rbind]. destruct (stands_begin (world_seg H)) as (it & Eb & St). rewrite Eb, state_end_eq. cbn [rbind].
  (* the end of the test *)
  assert (Fin : forall m6 head3 l l1 it', consists_of m6 base [(head3, l, null)] -> stands it' l1 [] -> length l < fuel ->
    leaves base (RC_ASSERT (null =? si_curr it')%N (RC_ASSERT (negb (negb (iterator_eq it' the_end))) (delete_state fuel m6 head3)))).
  { intros m6 head3 l l1 it' H6 St' L6. rewrite St'. cbn. now apply (deleted H6). }
  destruct xs as [|x xs]; cbn [nothing].
  { destruct ps; [|discriminate]. rewrite (stands_eq (world_seg H : segment _ _ ([] ++ []) _) St). cbn [RC_ASSERT followed_by rbind].
    apply (Fin _ _ _ _ _ H St). cbn in *; lia. }
  destruct ps as [|[a0 x0] ps]; [discriminate|].
  rewrite (stands_eq (world_seg H : segment _ _ ([] ++ (a0, x0) :: ps) _) St). cbn [negb]. unfold RC_ASSERT at 1.
  cbn [map nth_error deref rbind fst]. assert (C : si_curr it = a0) by (rewrite St; reflexivity). rewrite C, N.eqb_refl.
  unfold RC_ASSERT at 1.
  destruct (iterator_remove_ok (l1 := []) (fuel := fuel) None H ltac:(lia) St) as (m3 & it1 & E3 & H3 & G1).
  rewrite E3. cbn [rbind]. rewrite G1. cbn [si_curr]. rewrite N.eqb_refl. unfold RC_ASSERT at 1. cbn [app] in H3.
  destruct xs as [|x' xs].
  { destruct ps; [|cbn in Lp; lia]. cbn. apply (deleted H3). cbn in *; lia. }
  destruct ps as [|[a1 x1] ps]; [cbn in Lp; lia|]. cbn [length Nat.eqb].
  assert (N1 : a1 <> null) by (eapply world_nonnull; [exact H3|left; reflexivity]).
  unfold RC_ASSERT at 1. unfold iterator_eq at 1, the_end at 1 2. cbn [si_curr si_next app enter first_of fst leave last].
  destruct (N.eqb_spec a1 null) as [|_]; [contradiction|]. cbn [andb negb N.eqb null].
  destruct (gap_next (world_seg H3 : segment _ _ ([] ++ (a1, x1) :: ps) _) G1) as (it2 & E2' & St2).
  rewrite G1 in E2'. cbn [first_of fst leave last] in E2'. rewrite E2'. cbn [rbind map nth_error deref fst].
  assert (C2 : si_curr it2 = a1) by (rewrite St2; reflexivity). rewrite C2, N.eqb_refl. unfold RC_ASSERT at 1.
  destruct (stands_next (l1 := []) (world_seg H3) St2) as (it3 & E4 & St3). rewrite E4. cbn [rbind app].
  destruct xs as [|x'' xs].
  { destruct ps; [|cbn in Lp; lia]. cbn [length Nat.eqb].
    rewrite (stands_eq (world_seg H3 : segment _ _ ([(a1, x1)] ++ []) _) St3). cbn [RC_ASSERT followed_by rbind].
    apply (Fin _ _ _ _ _ H3 St3). cbn in *; lia. }
  destruct ps as [|[a2 x2] ps]; [cbn in Lp; lia|]. cbn [length Nat.eqb map nth_error deref rbind fst].
  assert (C3 : si_curr it3 = a2) by (rewrite St3; reflexivity). rewrite C3, N.eqb_refl. unfold RC_ASSERT at 1.
  destruct (world_new (Pos 0 0 false) HA H3) as (p & m4 & En & Np & _ & H4). rewrite En. rewrite loose_chain in H4.
  apply (world_perm (perm_swap _ _ _)) in H4.
  destruct (iterator_insert_ok (l1 := [(a1, x1)]) fuel H4 St3) as (m5 & it4 & E5 & H5 & St4). cbn [enter first_of fst] in E5. rewrite E5. cbn [rbind].
  assert (C4 : si_curr it4 = a2) by (rewrite St4; reflexivity). rewrite C4, N.eqb_refl. unfold RC_ASSERT at 1.
  destruct (stands_next (world_seg H5) St4) as (it5 & E6 & St5). rewrite E6. cbn [rbind].
  assert (C5 : si_curr it5 = p) by (rewrite St5; reflexivity). rewrite C5, N.eqb_refl. unfold RC_ASSERT at 1.
  pose proof (world_seg H5) as S5.
  change ([(a1, x1)] ++ (a2, x2) :: (p, Pos 0 0 false) :: ps) with (([(a1, x1)] ++ [(a2, x2)]) ++ (p, Pos 0 0 false) :: ps) in S5.
  destruct (stands_next S5 St5) as (it6 & E7 & St6). rewrite E7. cbn [rbind skipn].
  change (([(a1, x1)] ++ [(a2, x2)]) ++ (p, Pos 0 0 false) :: ps) with ((([(a1, x1)] ++ [(a2, x2)]) ++ [(p, Pos 0 0 false)]) ++ ps) in S5.
  destruct (iterates_loop_ok S5 St6) as (it7 & E8 & St7). rewrite E8. cbn [followed_by rbind].
  apply (Fin _ _ _ _ _ H5 St7). rewrite app_length. cbn in *. lia.
Qed.

Lemma compares_two_ok x y : compares_two x y = true.
Proof.
  unfold compares_two, compare. destruct x as [i e s], y as [j f t]. cbn [ti ne sp].
  destruct (N.ltb_spec i j), (N.ltb_spec j i), (N.ltb_spec e f), (N.ltb_spec f e); try lia; try reflexivity; destruct s, t; reflexivity.
Qed.

Lemma compares_loop_ok m base : forall ps prev cs, consists_of m base (map loose (prev :: ps) ++ cs) ->
  compares_loop m (fst prev) (map fst ps) = Ok (Passed tt).
Proof.
  induction ps as [|[b y] ps IH]; intros [a x] cs H; [reflexivity|]. cbn [map compares_loop fst]. cbn [map app] in H.
  rewrite !loose_chain in H. rewrite (world_pos (l1 := []) H). cbn [rbind].
  pose proof (world_perm (perm_swap _ _ _) H) as H'. rewrite (world_pos (l1 := []) H'). cbn [rbind].
  rewrite compares_two_ok. unfold RC_ASSERT. apply (IH (b, y) ((a, [(a, x)], null) :: cs)).
  eapply world_perm; [|exact H']. cbn [map app]. rewrite loose_chain. constructor. apply Permutation_middle.
Qed.

Lemma delete_each_ok base : forall ps m fuel, consists_of m base (map loose ps) -> 1 < fuel ->
  exists m', delete_each fuel m (map fst ps) = Ok m' /\ consists_of m' base [].
Proof.
  induction ps as [|[a x] ps IH]; intros m fuel H Hf.
  - exists m. auto.
  - cbn [map delete_each fst] in *. rewrite loose_chain in H. destruct (world_delete (fuel := fuel) H) as (m1 & E1 & H1); [cbn; lia|].
    rewrite E1. cbn [rbind]. now apply IH.
Qed.

Lemma compares_ok alloc base xs fuel : mallocator alloc -> 1 < fuel ->
  leaves base (correctly_compares_positions fuel alloc base xs).
Proof.
  intros HA Hf. destruct (made base xs HA) as (m & ps & E & M & H). apply world_empty in H. destruct H as [_ H].
  unfold correctly_compares_positions. rewrite E.
  assert (C : match map fst ps with [] => Ok (Passed tt) | prev :: ps' => compares_loop m prev ps' end = Ok (Passed tt)).
  { destruct ps as [|s ps]; [reflexivity|]. cbn [map]. rewrite <- (app_nil_r (map loose _)) in H. exact (compares_loop_ok H). }
  rewrite C. cbn [followed_by rbind]. destruct (delete_each_ok H Hf) as (m' & -> & (_ & _ & _ & F & _)). cbn [rbind].
  exists m'. split; [reflexivity|]. intros p. apply F. intros [].
Qed.
