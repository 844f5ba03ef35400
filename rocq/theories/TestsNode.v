(** * TestsNode: the tests about nodes, transitions and prefixes pass. *)
From Coq Require Import Permutation Sorted.
From Verif Require Import Base Spec ModelTransducer ModelDawg ModelState ModelIterator SpecDawg.
From Verif Require Import DistProofs TreeProofs HeapProofs BuildProofs DawgProofs PointerProofs MemoryProofs IteratorProofs ModelTests.
Set Implicit Arguments.
Unset Strict Implicit.
Local Open Scope nat_scope.

(** The nodes [l] have been made since. *)
Definition more (h h0 : heap) (l : list (ptr * node)) : Prop :=
  NoDup (map fst l) /\
  (forall p n, In (p, n) l -> p <> null /\ hget h0 p = None /\ hget h p = Some n) /\
  (forall p, ~ In p (map fst l) -> hget h p = hget h0 p).

Lemma more_start h : more h h [].
Proof. split; [constructor|]. split; [intros ? ? []|auto]. Qed.

Lemma more_perm h h0 l l' : Permutation l l' -> more h h0 l -> more h h0 l'.
Proof.
  intros P (N & I & O). split; [eapply Permutation_NoDup; [apply Permutation_map, P|exact N]|]. split.
  - intros p n Hp. apply I. eapply Permutation_in; [symmetry|]; eauto.
  - intros p Hp. apply O. intros Hp'. apply Hp. eapply Permutation_in; [apply Permutation_map, P|exact Hp'].
Qed.

Lemma more_new alloc h h0 l n : allocator alloc -> more h h0 l -> more (hset h (alloc h) n) h0 ((alloc h, n) :: l).
Proof.
  intros A (N & I & O). destruct (A h) as [Hn Hf].
  assert (Hi : ~ In (alloc h) (map fst l)).
  { intros Hi. apply in_map_iff in Hi. destruct Hi as ([p x] & E & Hi). cbn in E. subst. apply I in Hi.
    destruct Hi as (_ & _ & Hi). congruence. }
  split; [constructor; auto|]. split.
  - intros p x [E|Hp].
    + injection E as <- <-. split; [exact Hn|]. split; [rewrite <- O; auto|apply hget_hset_same].
    + destruct (I _ _ Hp) as (H1 & H2 & H3). split; [exact H1|]. split; [exact H2|].
      rewrite hget_hset_other; [exact H3|]. intros ->. apply Hi. apply in_map_iff. exists (alloc h, x). auto.
  - cbn [map fst In]. intros p Hp. rewrite hget_hset_other by (intros ->; tauto). apply O. cbn [map fst In]. tauto.
Qed.

Lemma more_get h h0 l p n : more h h0 l -> In (p, n) l -> p <> null /\ hget h p = Some n.
Proof. intros (_ & I & _) Hp. destruct (I _ _ Hp) as (H1 & _ & H3). auto. Qed.

Lemma more_read h h0 l p n : more h h0 l -> In (p, n) l -> read h p = Ok n.
Proof. intros M Hp. destruct (more_get M Hp). now apply read_ok. Qed.

Lemma more_set h h0 l p n n' : more h h0 ((p, n) :: l) -> more (hset h p n') h0 ((p, n') :: l).
Proof.
  intros (N & I & O). split; [exact N|]. inversion N as [|? ? Hi _]; subst. split.
  - intros q x [E|Hq].
    + injection E as <- <-. destruct (I _ _ (or_introl eq_refl)) as (H1 & H2 & _). split; [auto|]. split; [auto|]. apply hget_hset_same.
    + destruct (I _ _ (or_intror Hq)) as (H1 & H2 & H3). split; [auto|]. split; [auto|]. rewrite hget_hset_other; [exact H3|].
      intros ->. apply Hi. apply in_map_iff. exists (p, x). auto.
  - cbn [map fst In] in *. intros q Hq. rewrite hget_hset_other by (intros ->; tauto). apply O. cbn [map fst In]. tauto.
Qed.

Lemma more_delete h h0 l p n : more h h0 ((p, n) :: l) -> exists h', delete h p = Ok h' /\ more h' h0 l.
Proof.
  intros (N & I & O). inversion N as [|? ? Hi N']; subst. destruct (I _ _ (or_introl eq_refl)) as (H1 & H2 & H3).
  exists (hdel h p). unfold delete. destruct (N.eqb_spec p null); [contradiction|]. rewrite H3. split; [reflexivity|].
  split; [exact N'|]. split.
  - intros q x Hq. destruct (I _ _ (or_intror Hq)) as (G1 & G2 & G3). split; [auto|]. split; [auto|]. rewrite hget_hdel.
    destruct (N.eqb_spec q p) as [->|]; [|exact G3]. exfalso. apply Hi. apply in_map_iff. exists (p, x). auto.
  - intros q Hq. rewrite hget_hdel. destruct (N.eqb_spec q p) as [->|Hqp]; [auto|]. apply O. cbn [map fst In]. intros [E|E]; congruence.
Qed.

Lemma more_delete_all h0 : forall l h, more h h0 l -> exists h', delete_all h (map fst l) = Ok h' /\ same_heap h' h0.
Proof.
  induction l as [|[p n] l IH]; intros h M.
  - exists h. split; [reflexivity|]. intros p. apply M. intros [].
  - destruct (more_delete M) as (h1 & E & M1). cbn [map fst delete_all]. rewrite E. cbn [rbind]. now apply IH.
Qed.

(** Nodes without edges. *)
Lemma node_eq_leaf fuel h f g : 0 < fuel -> node_eq fuel h (Node f []) (Node g []) = Ok (Bool.eqb f g).
Proof. destruct fuel as [|fuel]; [lia|]. intros _. cbn. destruct f, g; reflexivity. Qed.

Lemma copies_ok alloc h0 fuel : allocator alloc -> 0 < fuel ->
  exists h, has_proper_copy_and_move_constructors fuel alloc h0 = Ok (Passed h) /\ same_heap h h0.
Proof.
  intros A Hf. unfold has_proper_copy_and_move_constructors, new_node.
  pose proof (more_new (Node false []) A (more_start h0)) as M1. set (h1 := hset h0 _ _) in *. set (s := alloc h0) in *.
  pose proof (more_new (Node false []) A M1) as M2. set (h2 := hset h1 _ _) in *. set (t1 := alloc h1) in *.
  pose proof (more_new (Node true []) A M2) as M3. set (h3 := hset h2 _ _) in *. set (t2 := alloc h2) in *.
  unfold trans_eq. cbn [t_label t_source t_target].
  rewrite (more_read (p := s) (n := Node false []) M3) by (cbn; tauto).
  rewrite (more_read (p := t1) (n := Node false []) M3) by (cbn; tauto).
  rewrite (more_read (p := t2) (n := Node true []) M3) by (cbn; tauto).
  cbn [rbind]. rewrite ceqb_refl. cbn [negb]. rewrite !node_eq_leaf by auto. cbn [Bool.eqb negb rbind RC_ASSERT].
  change (ceqb Ascii.zero "a"%char) with false. cbn [negb rbind RC_ASSERT].
  destruct (more_delete M3) as (h4 & -> & M4). cbn [rbind]. destruct (more_delete M4) as (h5 & -> & M5). cbn [rbind].
  destruct (more_delete M5) as (h6 & -> & M6). exists h6. split; [reflexivity|]. intros p. apply M6. intros [].
Qed.

Lemma getters_ok alloc h0 fuel : allocator alloc -> 0 < fuel ->
  exists h, has_correct_getters fuel alloc h0 = Ok (Passed h) /\ same_heap h h0.
Proof.
  intros A Hf. unfold has_correct_getters, new_node.
  pose proof (more_new (Node false []) A (more_start h0)) as M1. set (h1 := hset h0 _ _) in *. set (s := alloc h0) in *.
  pose proof (more_new (Node true []) A M1) as M2. set (h2 := hset h1 _ _) in *. set (t := alloc h1) in *.
  cbn [t_label t_source t_target]. rewrite ceqb_refl. cbn [RC_ASSERT].
  rewrite (more_read (p := s) (n := Node false []) M2) by (cbn; tauto).
  rewrite (more_read (p := t) (n := Node true []) M2) by (cbn; tauto).
  cbn [rbind]. rewrite !node_eq_leaf by auto. cbn [Bool.eqb rbind RC_ASSERT].
  destruct (more_delete M2) as (h4 & -> & M4). cbn [rbind]. destruct (more_delete M4) as (h5 & -> & M5). cbn [rbind].
  exists h5. split; [reflexivity|]. intros p. apply M5. intros [].
Qed.

(** ** Prefixes *)
Definition grown (h0 : heap) (m0 : mem pcell) (g : growth) (ns : list (ptr * node)) (os : list (ptr * pcell)) : Prop :=
  more (g_heap g) h0 ns /\ adds (g_prefixes g) m0 os /\ g_node_vector g = rev (map fst ns) /\ g_prefix_vector g = rev (map fst os).

Lemma grow_ok alloc palloc fuel fin parent label h0 m0 g ns os : allocator alloc -> mallocator palloc -> 0 < fuel ->
  grown h0 m0 g ns os ->
  exists p x n g', grow fuel alloc palloc fin parent label g = Ok (Passed (p, g')) /\
    grown h0 m0 g' ((n, x) :: ns) ((p, PCell n parent label) :: os).
Proof.
  intros A PA Hf (M & Ad & Vn & Vp). unfold grow, new_node.
  pose proof (more_new (Node fin []) A M) as M1. set (h1 := hset _ _ _) in *. set (n := alloc _) in *.
  destruct (mget_mnew (g_prefixes g) (PCell n parent label) PA) as (p & m1 & E & G1 & G2 & G3 & G4 & G5).
  rewrite E. rewrite (mread_ok G1 G3). cbn [rbind pc_node pc_label].
  rewrite (more_read (p := n) (n := Node fin []) M1) by (cbn; tauto). cbn [rbind].
  rewrite node_eq_leaf by auto. rewrite Bool.eqb_reflx, ceqb_refl. cbn [rbind RC_ASSERT].
  eexists _, _, _, _. split; [reflexivity|]. split; [exact M1|]. cbn [g_heap g_prefixes g_node_vector g_prefix_vector map fst rev].
  split; [eapply adds_one; eauto|]. rewrite Vn, Vp. auto.
Qed.

Lemma grow_all_ok alloc palloc fuel h0 m0 : allocator alloc -> mallocator palloc -> 0 < fuel ->
  forall term parent s n g ns os, grown h0 m0 g ns os -> spells os parent s n ->
  exists p n' g' ns' os', grow_all fuel alloc palloc parent term g = Ok (Passed (p, g')) /\
    grown h0 m0 g' ns' os' /\ spells os' p (s ++ term) n'.
Proof.
  intros A PA Hf. induction term as [|c term IH]; intros parent s n g ns os G Sp.
  - rewrite app_nil_r. eexists _, _, _, _, _. split; [reflexivity|]. eauto.
  - cbn [grow_all]. destruct (grow_ok (nothing term) parent c A PA Hf G) as (p & x & n' & g' & E & G'). rewrite E. cbn [followed_by rbind].
    destruct (IH p (s ++ [c]) n' g' _ _ G') as (p2 & n2 & g2 & ns2 & os2 & E2 & G2 & Sp2).
    { eapply spells_child; [left; reflexivity|]. eapply spells_incl; [|exact Sp]. apply incl_tl, incl_refl. }
    rewrite <- app_assoc in Sp2. eexists _, _, _, _, _. split; [exact E2|]. eauto.
Qed.

Lemma original_ok alloc palloc fuel h0 m0 term : allocator alloc -> mallocator palloc -> length term < fuel ->
  exists h m, returns_original_string fuel alloc palloc h0 m0 term = Ok (Passed (h, m)) /\
    same_heap h h0 /\ forall p, mget m p = mget m0 p.
Proof.
  intros A PA Hf. unfold returns_original_string.
  assert (G0 : grown h0 m0 (Growth h0 m0 [] []) [] []).
  { split; [apply more_start|]. split; [|auto]. apply adds_nil. split; auto. }
  assert (Hf0 : 0 < fuel) by lia.
  destruct (grow_ok (nothing term) null Ascii.zero A PA Hf0 G0) as (p & x & n & g & E & G). rewrite E. cbn [followed_by rbind].
  destruct (grow_all_ok A PA Hf0 term (parent := p) (s := []) (n := n) G) as (p2 & n2 & g2 & ns & os & E2 & (M & Ad & Vn & Vp) & Sp).
  { eapply spells_root. left. reflexivity. }
  rewrite E2. cbn [followed_by rbind]. cbn [app] in Sp.
  rewrite (pcell_str_ok Ad (incl_refl _) Sp Hf). cbn [rbind].
  replace (str_eqb term term) with true by (symmetry; apply DistProofs.str_eqb_eq; reflexivity). cbn [RC_ASSERT].
  rewrite Vp, <- map_rev. assert (Ad' : adds (g_prefixes g2) m0 (rev os ++ [])).
  { rewrite app_nil_r. eapply adds_perm; [apply Permutation_rev|exact Ad]. }
  destruct (delete_prefixes_ok Ad') as (m1 & E3 & Ad3). rewrite E3. cbn [rbind].
  rewrite Vn, <- map_rev. destruct (more_delete_all (more_perm (Permutation_rev _) M)) as (h1 & E4 & S). rewrite E4. cbn [rbind].
  exists h1, m1. split; [reflexivity|]. split; [exact S|]. apply (adds_same Ad3).
Qed.

(** ** Nodes with edges *)

(** A node with edges to nodes without edges. *)
Definition star (fin : bool) (l : list (ptr * node)) (es : list (char * ptr)) (labels : list char) : Prop :=
  esorted es /\ Permutation (map fst es) labels /\ forall c q, In (c, q) es -> In (q, Node fin []) l.

Lemma edge_set_new {A} (es : list (char * A)) c q : edge_get es c = None -> Permutation (map fst (edge_set es c q)) (c :: map fst es).
Proof.
  induction es as [|[d r] es IH]; cbn; [auto|]. destruct (ceqb c d); [discriminate|]. intros H.
  destruct (schar c <? schar d)%Z; [reflexivity|]. cbn. etransitivity; [constructor; apply IH; exact H|apply perm_swap].
Qed.

Lemma star_none fin l es labels c : star fin l es labels -> ~ In c labels -> edge_get es c = None.
Proof.
  intros (_ & P & _) H. apply edge_get_None. intros q Hq. apply H. eapply Permutation_in; [exact P|]. apply in_map_iff. exists (c, q). auto.
Qed.

Lemma star_add fin l es labels c q : star fin l es labels -> ~ In c labels ->
  star fin ((q, Node fin []) :: l) (edge_set es c q) (labels ++ [c]).
Proof.
  intros S H. pose proof (star_none S H) as G. destruct S as (So & P & T). split; [now apply edge_set_sorted|]. split.
  - rewrite (edge_set_new q G). rewrite P. apply Permutation_cons_append.
  - intros d r Hd. apply edge_set_In in Hd. destruct Hd as [[-> ->]|Hd]; [left; reflexivity|right; eauto].
Qed.

Lemma star_incl fin l l' es labels : incl l l' -> star fin l es labels -> star fin l' es labels.
Proof. intros I (So & P & T). split; [exact So|]. split; [exact P|]. intros c q H. apply I. eauto. Qed.

(** [add_edges], and the same with the edges noted. *)
Lemma add_edges_ok alloc fin h0 p f : allocator alloc -> forall labels h es others new done,
  more h h0 ((p, Node f es) :: new ++ others) -> star fin new es done -> NoDup (done ++ labels) ->
  exists h' es' new', add_edges alloc fin h p labels = Ok h' /\ more h' h0 ((p, Node f es') :: new' ++ others) /\
    star fin new' es' (done ++ labels) /\ length new' = length new + length labels /\
    (fin = false -> forall noted, noted = es -> add_and_note alloc h p labels noted = Ok (h', es')).
Proof.
  intros A. induction labels as [|c labels IH]; intros h es others new done M S N.
  - rewrite app_nil_r. exists h, es, new. split; [reflexivity|]. split; [exact M|]. split; [exact S|]. split; [cbn; lia|].
    intros _ ? ->. reflexivity.
  - cbn [add_edges add_and_note]. unfold new_node. pose proof (more_new (Node fin []) A M) as M1. set (h1 := hset _ _ _) in *. set (q := alloc h) in *.
    apply (more_perm (perm_swap _ _ _)) in M1. destruct (more_get M1 (or_introl eq_refl)) as [Hn Hg].
    assert (Hc : ~ In c done). { apply NoDup_remove in N. intros H. apply (proj2 N). apply in_or_app. now left. }
    rewrite (add_edge_ok h1 p (Node f es) c q Hn Hg (star_none S Hc)). cbn [nfin nedges rbind].
    pose proof (more_set (Node f (edge_set es c q)) M1) as M2. change (c :: labels) with ([c] ++ labels) in N. rewrite app_assoc in N.
    destruct (IH _ _ _ ((q, Node fin []) :: new) _ M2 (star_add q S Hc) N) as (h' & es' & new' & E & M' & S' & L & No).
    rewrite <- app_assoc in S'. exists h', es', new'. split; [exact E|]. split; [exact M'|]. split; [exact S'|].
    split; [cbn in *; lia|]. intros -> noted ->. fold q h1.
    rewrite (add_edge_ok h1 p (Node f es) c q Hn Hg (star_none S Hc)). cbn [rbind]. now apply No.
Qed.

Lemma made_node alloc fin f labels h h0 others : allocator alloc -> more h h0 others -> NoDup labels ->
  exists h' es new, add_edges alloc fin (hset h (alloc h) (Node f [])) (alloc h) labels = Ok h' /\
    more h' h0 ((alloc h, Node f es) :: new ++ others) /\ star fin new es labels /\ length new = length labels /\
    (fin = false -> add_and_note alloc (hset h (alloc h) (Node f [])) (alloc h) labels [] = Ok (h', es)).
Proof.
  intros A M N. destruct (add_edges_ok (fin := fin) (f := f) A (labels := labels) (done := []) (others := others) (new := []) (more_new (Node f []) A M))
    as (h' & es & new & E & M' & S & L & No); [split; [constructor|split; [constructor|intros ? ? []]]|exact N|].
  exists h', es, new. split; [exact E|]. split; [exact M'|]. split; [exact S|]. split; [exact L|]. intros F. apply (No F). reflexivity.
Qed.

(** The tree below such a node. *)
Definition under (f fin : bool) (labels : list char) : tree := T f (map (fun c => (c, T fin [])) labels).

Lemma star_under fin h h0 all new es labels f : more h h0 all -> incl new all -> star fin new es labels ->
  nunf h (Node f es) (under f fin (map fst es)).
Proof.
  intros M I (So & _ & Tg). split; [exact So|]. split; [|reflexivity]. cbn [nedges under tedges].
  clear So. induction es as [|[c q] es IH]; cbn; constructor.
  - destruct (more_get M (I _ (Tg c q (or_introl eq_refl)))) as [Hn Hg]. eapply unf_intro; [exact Hn|exact Hg|].
    split; [constructor|]. split; [constructor|reflexivity].
  - apply IH. intros d r H. apply (Tg d r). now right.
Qed.

Lemma under_height f fin labels : height (under f fin labels) <= 2.
Proof.
  unfold under. cbn [height]. apply le_n_S. induction labels as [|c labels IH]; cbn [map fold_right snd]; [lia|].
  apply Nat.max_lub; [reflexivity|exact IH].
Qed.

Lemma sorted_keys {A B} (es : list (char * A)) : forall es' : list (char * B), esorted es -> esorted es' ->
  Permutation (map fst es) (map fst es') -> map fst es = map fst es'.
Proof.
  induction es as [|[c q] es IH]; intros es' S S' P.
  - cbn in *. apply Permutation_nil in P. auto.
  - destruct es' as [|[d r] es']. { apply Permutation_sym, Permutation_nil in P. discriminate. }
    inversion S as [|? ? S1 F1]; subst. inversion S' as [|? ? S2 F2]; subst. cbn [map fst] in *.
    rewrite Forall_forall in F1, F2.
    assert (E : c = d).
    { apply schar_inj. assert (H1 : In d (c :: map fst es)) by (eapply Permutation_in; [symmetry; exact P|left; reflexivity]).
      assert (H2 : In c (d :: map fst es')) by (eapply Permutation_in; [exact P|left; reflexivity]).
      destruct H1 as [->|H1]; [reflexivity|]. destruct H2 as [->|H2]; [reflexivity|].
      apply in_map_iff in H1, H2. destruct H1 as ([d' x] & E1 & H1), H2 as ([c' y] & E2 & H2). cbn in E1, E2. subst d' c'.
      apply F1 in H1. apply F2 in H2. unfold elt in *. cbn in *. lia. }
    subst d. f_equal. apply IH; auto. eapply Permutation_cons_inv. exact P.
Qed.

Lemma same_labels_iff xs ys : NoDup xs -> NoDup ys -> (same_labels xs ys = true <-> Permutation xs ys).
Proof.
  intros Nx Ny. unfold same_labels. rewrite Bool.andb_true_iff, Nat.eqb_eq, forallb_forall. split.
  - intros [L I]. apply NoDup_Permutation_bis; auto; [lia|]. intros c Hc. specialize (I c Hc). apply existsb_exists in I.
    destruct I as (d & Hd & E). apply Ascii.eqb_eq in E. now subst.
  - intros P. split; [now apply Permutation_length|]. intros c Hc. apply existsb_exists. exists c. split; [eapply Permutation_in; eauto|apply ceqb_refl].
Qed.

(** What is left when [k] nodes have been forgotten. *)
Definition lost (k : nat) (h h0 : heap) : Prop := exists l, length l = k /\ more h h0 l.

Lemma comparable_ok alloc h0 xs f t ys f' t' fuel : allocator alloc -> NoDup xs -> NoDup ys -> 2 <= fuel ->
  exists h, is_comparable fuel alloc h0 xs f t ys f' t' = Ok (Passed h) /\ lost (length xs + length ys) h h0.
Proof.
  intros A Nx Ny Hf. unfold is_comparable, new_node.
  destruct (made_node t f A (more_start h0) Nx) as (h2 & es & new & E & M & S & L & _). rewrite E. cbn [rbind]. rewrite app_nil_r in M.
  destruct (made_node t' f' A M Ny) as (h4 & es' & new' & E' & M' & S' & L' & _). rewrite E'. cbn [rbind].
  set (p := alloc h0) in *. set (p' := alloc h2) in *.
  rewrite (more_read (p := p) (n := Node f es) M') by (right; apply in_or_app; right; left; reflexivity).
  rewrite (more_read (p := p') (n := Node f' es') M') by (left; reflexivity). cbn [rbind].
  assert (U : nunf h4 (Node f es) (under f t (map fst es))).
  { eapply star_under; [exact M'| |exact S]. intros x Hx. right. apply in_or_app. right. now right. }
  assert (U' : nunf h4 (Node f' es') (under f' t' (map fst es'))).
  { eapply star_under; [exact M'| |exact S']. intros x Hx. right. apply in_or_app. now left. }
  destruct (node_eq_ok fuel _ _ _ _ _ U U') as (r & Er & Ir). { pose proof (under_height f t (map fst es)). lia. }
  rewrite Er. cbn [rbind].
  assert (B : r = (same_labels xs ys && Bool.eqb f f' && (Bool.eqb t t' || nothing xs))%bool).
  { apply Bool.eq_iff_eq_true. rewrite Ir, !Bool.andb_true_iff, Bool.orb_true_iff, !Bool.eqb_true_iff, (same_labels_iff Nx Ny).
    destruct S as (So & P & _), S' as (So' & P' & _). unfold under. split.
    - intros H. injection H as -> H. assert (Ek : map fst es = map fst es').
      { apply (f_equal (map fst)) in H. rewrite !map_map in H. exact H. }
      split; [split; [|reflexivity]|]. { rewrite <- P, Ek. exact P'. }
      destruct xs as [|x xs]; [right; reflexivity|left]. destruct es as [|[c q] es]. { cbn in P. apply Permutation_nil in P. discriminate. }
      destruct es' as [|[c' q'] es']; [discriminate|]. cbn in H. injection H as _ -> _. reflexivity.
    - intros [[P0 ->] T]. assert (Ek : map fst es = map fst es'). { apply sorted_keys; auto. now rewrite P, P'. }
      rewrite Ek. destruct T as [->|T]; [reflexivity|]. destruct xs; [|discriminate]. apply Permutation_nil in P0. subst ys.
      apply Permutation_sym, Permutation_nil in P'. now rewrite P'. }
  rewrite B.
  match goal with |- context [RC_ASSERT (if ?b then ?b else negb ?b)] => replace (if b then b else negb b) with true by (destruct b; reflexivity) end.
  cbn [RC_ASSERT].
  assert (M'' : more h4 h0 ((p, Node f es) :: (p', Node f' es') :: new' ++ new)).
  { eapply more_perm; [|exact M']. etransitivity; [|apply perm_swap]. constructor. symmetry. apply Permutation_middle. }
  destruct (more_delete M'') as (h5 & -> & M5). cbn [rbind]. destruct (more_delete M5) as (h6 & -> & M6). cbn [rbind].
  exists h6. split; [reflexivity|]. eexists. split; [|exact M6]. rewrite app_length. lia.
Qed.

Lemma make_edges_ok alloc h0 : allocator alloc -> forall labels h es new done,
  more h h0 new -> star false new es done -> NoDup (done ++ labels) ->
  exists h' es' new', make_edges alloc h labels es = (h', es') /\ more h' h0 new' /\
    star false new' es' (done ++ labels) /\ length new' = length new + length labels.
Proof.
  intros A. induction labels as [|c labels IH]; intros h es new done M S N.
  - rewrite app_nil_r. exists h, es, new. cbn. auto.
  - cbn [make_edges]. unfold new_node. pose proof (more_new (Node false []) A M) as M1.
    assert (Hc : ~ In c done). { apply NoDup_remove in N. intros H. apply (proj2 N). apply in_or_app. now left. }
    change (c :: labels) with ([c] ++ labels) in N. rewrite app_assoc in N.
    destruct (IH _ _ _ _ M1 (star_add (alloc h) S Hc) N) as (h' & es' & new' & E & M' & S' & L).
    rewrite <- app_assoc in S'. exists h', es', new'. split; [exact E|]. split; [exact M'|]. split; [exact S'|]. cbn in *; lia.
Qed.

Lemma equivalent_ok alloc h0 labels f fuel : allocator alloc -> NoDup labels -> 2 <= fuel ->
  exists h, has_equivalent_constructors fuel alloc h0 labels f = Ok (Passed h) /\ lost (length labels + length labels) h h0.
Proof.
  intros A N Hf. unfold has_equivalent_constructors, new_node.
  destruct (make_edges_ok (labels := labels) (done := []) (es := []) A (more_start h0)) as (h1 & es & new & E & M & S & L);
    [split; [constructor|split; [constructor|intros ? ? []]]|exact N|]. rewrite E. cbn [app] in S.
  pose proof (more_new (Node f []) A M) as M2. set (h2 := hset h1 _ _) in *. set (p := alloc h1) in *.
  pose proof (more_new (Node f es) A M2) as M3. set (h3 := hset h2 _ _) in *. set (p' := alloc h2) in *.
  assert (M3' : more h3 h0 ((p, Node f []) :: [] ++ (p', Node f es) :: new)) by (eapply more_perm; [apply perm_swap|exact M3]).
  destruct (add_edges_ok (fin := false) A (labels := labels) (done := []) M3') as (h4 & es' & new' & E' & M4 & S' & L' & _);
    [split; [constructor|split; [constructor|intros ? ? []]]|exact N|]. rewrite E'. cbn [rbind]. cbn [app] in S'.
  rewrite (more_read (p := p) (n := Node f es') M4) by (left; reflexivity).
  rewrite (more_read (p := p') (n := Node f es) M4) by (right; apply in_or_app; right; left; reflexivity). cbn [rbind].
  assert (U' : nunf h4 (Node f es') (under f false (map fst es'))).
  { eapply star_under; [exact M4| |exact S']. intros x Hx. right. apply in_or_app. now left. }
  assert (U : nunf h4 (Node f es) (under f false (map fst es))).
  { eapply star_under; [exact M4| |exact S]. intros x Hx. right. apply in_or_app. right. now right. }
  destruct (node_eq_ok fuel _ _ _ _ _ U' U) as (r & Er & Ir). { pose proof (under_height f false (map fst es')). lia. }
  rewrite Er. cbn [rbind nfin].
  assert (Ek : map fst es' = map fst es). { destruct S as (So & P & _), S' as (So' & P' & _). apply sorted_keys; auto. now rewrite P, P'. }
  rewrite (proj2 Ir) by now rewrite Ek. rewrite Bool.eqb_reflx. cbn [RC_ASSERT].
  assert (M4' : more h4 h0 ((p, Node f es') :: (p', Node f es) :: new' ++ new)).
  { eapply more_perm; [|exact M4]. constructor. symmetry. apply Permutation_middle. }
  destruct (more_delete M4') as (h5 & -> & M5). cbn [rbind]. destruct (more_delete M5) as (h6 & -> & M6). cbn [rbind].
  exists h6. split; [reflexivity|]. eexists. split; [|exact M6]. rewrite app_length. cbn in *. lia.
Qed.

Lemma edges_ok alloc h0 labels f : allocator alloc -> NoDup labels ->
  exists h, can_have_edges_added alloc h0 labels f = Ok (Passed h) /\ lost (length labels) h h0.
Proof.
  intros A N. unfold can_have_edges_added, new_node.
  destruct (made_node false f A (more_start h0) N) as (h2 & es & new & _ & M & S & L & E). specialize (E eq_refl). rewrite E. cbn [rbind].
  rewrite (more_read (p := alloc h0) (n := Node f es) M) by (left; reflexivity). cbn [rbind nedges].
  destruct S as (So & P & Tg). pose proof (Permutation_NoDup (Permutation_sym P) N) as Nk.
  rewrite (proj2 (same_labels_iff N Nk) (Permutation_sym P)). cbn [RC_ASSERT].
  assert (B : forallb (fun label => negb (transition (Node f es) label =? null)%N &&
      (transition (Node f es) label =? transition (Node false es) label)%N) labels = true).
  { apply forallb_forall. intros c Hc. unfold transition. cbn [nedges]. rewrite N.eqb_refl, Bool.andb_true_r.
    assert (Hk : In c (map fst es)) by (eapply Permutation_in; [symmetry; exact P|exact Hc]).
    apply in_map_iff in Hk. destruct Hk as ([c' q] & Ec & Hq). cbn in Ec. subst c'. rewrite (edge_In_get _ _ _ _ So Hq).
    destruct (more_get M (or_intror (in_or_app _ _ _ (or_introl (Tg _ _ Hq))))) as [Hn _]. destruct (N.eqb_spec q null); [contradiction|reflexivity]. }
  rewrite B. cbn [RC_ASSERT]. destruct (more_delete M) as (h3 & -> & M3). cbn [rbind]. exists h3. split; [reflexivity|].
  eexists. split; [|exact M3]. rewrite app_nil_r. exact L.
Qed.
