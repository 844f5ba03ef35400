(** * IterProofs: breadth-first enumeration lists the words of a tree by length
    and then in signed lexicographic order; DawgIterator computes it. *)
From Coq Require Import Sorting.Sorted Sorting.Permutation.
From Verif Require Import Base Spec ModelHash ModelDawg SpecDawg TreeProofs HeapProofs.

(** ** Orders *)
Lemma slex_irrefl : forall v, ~ slex_lt v v.
Proof. intros v H. remember v as w in H at 2. revert Heqw. induction H; intros E; inversion E; subst; auto; lia. Qed.

Lemma slex_trans : forall u v w, slex_lt u v -> slex_lt v w -> slex_lt u w.
Proof.
  intros u v w H. revert w. induction H; intros x X; inversion X; subst.
  - constructor.
  - constructor.
  - apply slex_head; lia.
  - apply slex_head; auto.
  - apply slex_head; auto.
  - apply slex_tail; auto.
Qed.

Lemma shortlex_irrefl : forall v, ~ shortlex_lt v v.
Proof. intros v [H|[_ H]]; [lia|]. eapply slex_irrefl; eauto. Qed.

Lemma shortlex_trans : forall u v w, shortlex_lt u v -> shortlex_lt v w -> shortlex_lt u w.
Proof.
  intros u v w [A|[A A']] [B|[B B']]; unfold shortlex_lt; try (left; lia).
  right. split; [lia|]. eapply slex_trans; eauto.
Qed.

Lemma slex_app : forall u v x y, length u = length v -> slex_lt u v -> slex_lt (u ++ x) (v ++ y).
Proof.
  intros u v x y L H. revert L. induction H; cbn; intros L; try discriminate.
  - apply slex_head; auto.
  - apply slex_tail; auto.
Qed.

Lemma slex_app_l : forall p u v, slex_lt u v -> slex_lt (p ++ u) (p ++ v).
Proof. induction p; cbn; intros; auto. apply slex_tail; auto. Qed.

(** ** Enumeration of a queue of subtrees *)
Notation item := (list ascii * tree)%type (only parsing).

Definition children (s : str) (es : list (char * tree)) : list item :=
  map (fun e => (s ++ [fst e], snd e)) es.

Definition qsize (q : list item) : nat := sizes (map snd q).

Fixpoint bfs (k : nat) (q : list item) : list str :=
  match k, q with
  | S k', (s, T f es) :: q' => (if f then [s] else []) ++ bfs k' (q' ++ children s es)
  | _, _ => []
  end.

Definition enum (q : list item) : list str := bfs (qsize q) q.

Lemma qsize_step : forall s f es q, qsize ((s, T f es) :: q) = S (qsize (q ++ children s es)).
Proof.
  intros. unfold qsize. rewrite map_app, sizes_app. cbn [map sizes fold_right snd].
  change (fold_right (fun t m => tsize t + m) 0 (map snd q)) with (sizes (map snd q)).
  rewrite sizes_edges.
  replace (map snd (children s es)) with (map snd es); [lia|].
  unfold children. rewrite map_map. reflexivity.
Qed.

Lemma enum_nil : enum [] = [].
Proof. reflexivity. Qed.

Lemma enum_cons : forall s f es q,
  enum ((s, T f es) :: q) = (if f then [s] else []) ++ enum (q ++ children s es).
Proof. intros. unfold enum. rewrite qsize_step. reflexivity. Qed.

(** Induction over the enumeration. *)
Lemma queue_ind : forall (P : list item -> Prop),
  P [] ->
  (forall s f es q, P (q ++ children s es) -> P ((s, T f es) :: q)) ->
  forall q, P q.
Proof.
  intros P H0 H1 q. remember (qsize q) as k eqn:E. revert q E.
  induction k as [|k IH]; intros [|[s [f es]] q] E; auto.
  - rewrite qsize_step in E. discriminate.
  - apply H1. apply IH. rewrite qsize_step in E. injection E as E. exact E.
Qed.

Definition denotes (q : list item) (w : str) : Prop :=
  exists s t u, In (s, t) q /\ w = s ++ u /\ tin t u = true.

Lemma denotes_step : forall s f es q w, tsorted (T f es) ->
  (denotes ((s, T f es) :: q) w <-> (f = true /\ w = s) \/ denotes (q ++ children s es) w).
Proof.
  intros s f es q w So. unfold denotes. split.
  - intros (s' & t & u & [I|I] & -> & E).
    + injection I as <- <-. destruct u as [|c u]; cbn in E.
      * left. rewrite app_nil_r. auto.
      * destruct (edge_get es c) as [t'|] eqn:G; [|discriminate]. right.
        exists (s ++ [c]), t', u. rewrite <- app_assoc. split; [|auto].
        apply in_app_iff. right. unfold children. apply in_map_iff. exists (c, t'). split; auto.
        apply edge_get_In; auto.
    + right. exists s', t, u. split; auto. apply in_app_iff; auto.
  - intros [[-> ->]|(s' & t & u & I & -> & E)].
    + exists s, (T true es), []. rewrite app_nil_r. split; [left; auto|auto].
    + apply in_app_iff in I. destruct I as [I|I].
      * exists s', t, u. split; [right; auto|auto].
      * unfold children in I. apply in_map_iff in I. destruct I as ([c t'] & X & I).
        cbn in X. injection X as <- <-.
        exists s, (T f es), (c :: u). split; [left; auto|]. rewrite <- app_assoc. split; auto.
        cbn. inversion So; subst. rewrite (edge_In_get _ _ _ _ H1 I). auto.
Qed.

Definition qsorted (q : list item) : Prop := Forall (fun e => tsorted (snd e)) q.

Lemma qsorted_step : forall s f es q, qsorted ((s, T f es) :: q) -> tsorted (T f es) /\ qsorted (q ++ children s es).
Proof.
  intros s f es q H. inversion H; subst. cbn in *. split; auto.
  apply Forall_app. split; auto. inversion H2 as [? ? So Fo]; subst. unfold children.
  rewrite Forall_forall in *. intros [s' t] I. apply in_map_iff in I. destruct I as ([c t'] & X & I).
  injection X as <- <-. apply (Fo _ I).
Qed.

Lemma enum_In : forall q, qsorted q -> forall w, In w (enum q) <-> denotes q w.
Proof.
  apply (queue_ind (fun q => qsorted q -> forall w, In w (enum q) <-> denotes q w)).
  - intros _ w. cbn. split; [tauto|]. intros (s & t & u & [] & _).
  - intros s f es q IH S w. destruct (qsorted_step _ _ _ _ S) as [St Sq].
    rewrite enum_cons, in_app_iff, denotes_step by auto. rewrite (IH Sq).
    destruct f; cbn; intuition congruence.
Qed.

(** [a] before [b] in the queue. *)
Definition before (a b : item) : Prop :=
  shortlex_lt (fst a) (fst b) /\ forall c, shortlex_lt (fst b) (fst a ++ [c]).

Lemma before_step : forall s f es q, tsorted (T f es) ->
  StronglySorted before ((s, T f es) :: q) -> StronglySorted before (q ++ children s es).
Proof.
  intros s f es q St S. inversion S as [|? ? Sq F]; subst. inversion St as [? ? So _]; subst.
  assert (Sc : StronglySorted before (children s es)).
  { clear - So. unfold esorted in So. unfold children.
    induction So as [|[c t] es So IH F]; cbn; constructor; auto.
    rewrite Forall_forall in *. intros [s' t'] I. apply in_map_iff in I. destruct I as ([d t2] & X & I).
    injection X as <- <-. specialize (F _ I). unfold elt in F; cbn in F.
    split; cbn.
    - right. rewrite !app_length. split; auto. apply slex_app_l. apply slex_head; auto.
    - intros c'. left. rewrite !app_length. cbn. lia. }
  assert (Cr : Forall (fun a => Forall (before a) (children s es)) q).
  { rewrite Forall_forall in *. intros [s1 t1] I1. rewrite Forall_forall. intros [s2 t2] I2.
    unfold children in I2. apply in_map_iff in I2. destruct I2 as ([c t3] & X & I2). injection X as <- <-.
    destruct (F _ I1) as [F1 F2]. cbn in F1, F2. split; cbn; auto.
    intros c'. destruct F1 as [F1|[F1 F1']].
    - left. rewrite !app_length. cbn. lia.
    - right. rewrite !app_length. cbn. split; [lia|]. apply slex_app; auto. }
  clear - Sq Sc Cr. induction Sq as [|a q Sq IH F]; cbn; auto.
  inversion Cr; subst. constructor; auto. apply Forall_app. auto.
Qed.

Lemma shortlex_prefix : forall s u, u = [] \/ shortlex_lt s (s ++ u).
Proof. intros s [|c u]; auto. right. left. rewrite app_length. cbn. lia. Qed.

Lemma enum_sorted : forall q, qsorted q -> StronglySorted before q -> StronglySorted shortlex_lt (enum q).
Proof.
  apply (queue_ind (fun q => qsorted q -> StronglySorted before q -> StronglySorted shortlex_lt (enum q))).
  - constructor.
  - intros s f es q IH Sq Sb. destruct (qsorted_step _ _ _ _ Sq) as [St Sq'].
    pose proof (before_step _ _ _ _ St Sb) as Sb'. specialize (IH Sq' Sb').
    rewrite enum_cons. destruct f; cbn; auto. constructor; auto.
    rewrite Forall_forall. intros w I. apply enum_In in I; auto.
    destruct I as (s' & t & u & I & -> & _).
    assert (shortlex_lt s s') as L.
    { apply in_app_iff in I. destruct I as [I|I].
      - inversion Sb as [|? ? _ F]; subst. rewrite Forall_forall in F. apply (F _ I).
      - unfold children in I. apply in_map_iff in I. destruct I as ([c t3] & X & I). injection X as <- <-.
        left. rewrite app_length. cbn. lia. }
    destruct (shortlex_prefix s' u) as [->|P].
    + rewrite app_nil_r. auto.
    + eapply shortlex_trans; eauto.
Qed.

(** The words of a tree, in iteration order. *)
Definition words (t : tree) : list str := enum [([], t)].

Lemma words_In : forall t w, tsorted t -> (In w (words t) <-> tin t w = true).
Proof.
  intros t w S. unfold words. rewrite enum_In by (repeat constructor; auto).
  unfold denotes. split.
  - intros (s & t' & u & [I|[]] & -> & E). injection I as <- <-. auto.
  - intros E. exists [], t, w. split; [left; auto|auto].
Qed.

Lemma words_sorted : forall t, tsorted t -> StronglySorted shortlex_lt (words t).
Proof. intros. apply enum_sorted; repeat constructor; auto. Qed.

Lemma StronglySorted_sorted_by : forall R l, StronglySorted R l -> sorted_by R l.
Proof.
  intros R l H. induction H as [|a l S IH F]; [constructor|].
  destruct l; constructor; auto. inversion F; auto.
Qed.

Lemma sorted_by_StronglySorted : forall (R : str -> str -> Prop) l,
  (forall a b c, R a b -> R b c -> R a c) -> sorted_by R l -> StronglySorted R l.
Proof.
  intros R l Tr H. apply Sorted_StronglySorted; [intros a b c; apply Tr|].
  induction H; [constructor | repeat constructor |].
  constructor; auto.
Qed.

Lemma sorted_unique : forall (R : str -> str -> Prop) l1 l2,
  (forall v, ~ R v v) -> (forall a b c, R a b -> R b c -> R a c) ->
  StronglySorted R l1 -> StronglySorted R l2 -> (forall w, In w l1 <-> In w l2) -> l1 = l2.
Proof.
  intros R l1 l2 Irr Tr S1. revert l2. induction S1 as [|a l1 S1 IH F1]; intros l2 S2 E.
  - destruct l2 as [|b l2]; auto. exfalso. apply (proj2 (E b)). left; auto.
  - destruct S2 as [|b l2 S2 F2]; [exfalso; apply (proj1 (E a)); left; auto|].
    rewrite Forall_forall in F1, F2.
    assert (a = b).
    { destruct (proj1 (E a) (or_introl eq_refl)) as [X|X]; auto.
      destruct (proj2 (E b) (or_introl eq_refl)) as [Y|Y]; auto.
      exfalso. eapply Irr. eapply Tr; [apply (F1 _ Y) | apply (F2 _ X)]. }
    subst b. f_equal. apply IH; auto. intros w. split; intros I.
    + destruct (proj1 (E w) (or_intror I)) as [->|X]; auto. exfalso. eapply Irr. apply (F1 _ I).
    + destruct (proj2 (E w) (or_intror I)) as [->|X]; auto. exfalso. eapply Irr. apply (F2 _ I).
Qed.

Lemma StronglySorted_NoDup : forall (R : str -> str -> Prop) l, (forall v, ~ R v v) ->
  StronglySorted R l -> NoDup l.
Proof.
  intros R l Irr S. induction S as [|a l S IH F]; constructor; auto.
  intros I. rewrite Forall_forall in F. eapply Irr. apply (F _ I).
Qed.

(** ** DawgIterator *)
Definition represents_item (h : heap) (p : prefix) (e : item) : Prop :=
  prefix_str p = fst e /\ unf h (prefix_node p) (snd e).

Lemma advance_loop_ok : forall fuel h ps q, Forall2 (represents_item h) ps q -> ps <> [] ->
  qsize q < fuel ->
  exists rest p n q', advance_loop fuel h ps = Ok (rest, p, n) /\ Forall2 (represents_item h) rest q' /\
    qsize q' < qsize q /\
    ((nfin n = true /\ enum q = prefix_str p :: enum q') \/ (nfin n = false /\ rest = [] /\ enum q = [])).
Proof.
  induction fuel as [|fuel IH]; intros h ps q F NE L; [lia|].
  destruct F as [|p [s [f es]] ps q [Ps Up] F]; [congruence|]. cbn in Ps, Up.
  destruct (unf_read _ _ _ Up) as (n & R & G & Sn & Un & Fn). cbn in Un, Fn.
  cbn [advance_loop]. rewrite R. cbn [rbind].
  set (rest := ps ++ map (fun e => ChildPrefix (snd e) p (fst e)) (nedges n)).
  assert (F' : Forall2 (represents_item h) rest (q ++ children s es)).
  { apply Forall2_app; auto. subst s. clear - Un. unfold children. induction Un; cbn; constructor; auto.
    split; auto. }
  pose proof (qsize_step s f es q) as Q. rewrite enum_cons. rewrite Fn in *.
  destruct (nfin n) eqn:En.
  - exists rest, p, n, (q ++ children s es). split; [auto|]. split; [auto|]. split; [lia|].
    left. subst s. auto.
  - destruct rest as [|r rest'] eqn:Er.
    + exists [], p, n, []. inversion F'. split; [auto|]. split; [constructor|]. split; [change (qsize []) with 0; lia|].
      right. auto.
    + destruct (IH h (r :: rest') (q ++ children s es) F') as (rest2 & p2 & n2 & q2 & E2 & F2 & L2 & D2);
        [discriminate | lia |].
      exists rest2, p2, n2, q2. split; [auto|]. split; [auto|]. split; [lia|]. auto.
Qed.

Definition next_value (v : str) (l : list str) : str := match l with [] => v | w :: _ => w end.

Lemma advance_ok : forall fuel h it q, Forall2 (represents_item h) (it_pending it) q ->
  qsize q < fuel ->
  exists it' q', advance fuel h it = Ok it' /\ Forall2 (represents_item h) (it_pending it') q' /\
    qsize q' <= qsize q /\ it_index it' = it_index it /\
    it_value it' = next_value (it_value it) (enum q) /\ enum q' = tl (enum q).
Proof.
  intros fuel h it q F L. unfold advance. destruct (it_pending it) as [|p ps] eqn:Ep.
  - inversion F; subst. exists it, []. rewrite Ep. cbn. repeat split; auto.
  - destruct (advance_loop_ok fuel h (p :: ps) q F) as (rest & p2 & n & q' & E & F' & L' & D); [discriminate|auto|].
    rewrite E. cbn.
    destruct D as [[En Ee]|(En & -> & Ee)]; rewrite En.
    + eexists _, q'. split; [reflexivity|]. cbn. rewrite Ee. cbn. repeat split; auto. lia.
    + eexists _, []. split; [reflexivity|]. cbn. rewrite Ee. cbn. inversion F'; subst. repeat split; auto. lia.
Qed.

(** The values seen by a loop of [n] iterations whose first value is [v]. *)
Fixpoint emitted (n : nat) (v : str) (l : list str) : list str :=
  match n with
  | O => []
  | S n' => v :: emitted n' (next_value v l) (tl l)
  end.

Lemma iterate_loop_ok : forall n k fuel h last it q, Forall2 (represents_item h) (it_pending it) q ->
  qsize q < fuel -> n < k -> (last < W)%N -> (it_index it + N.of_nat n = last)%N ->
  iterate_loop k fuel h last it = Ok (emitted n (it_value it) (enum q)).
Proof.
  induction n as [|n IH]; intros [|k] fuel h last it q F L Lk Lw Ei; cbn [iterate_loop emitted]; try lia.
  - replace (it_index it =? last)%N with true by (symmetry; apply N.eqb_eq; lia). auto.
  - replace (it_index it =? last)%N with false by (symmetry; apply N.eqb_neq; lia).
    unfold iter_next. destruct (advance_ok fuel h it q F L) as (it' & q' & E & F' & L' & Ii & V & En).
    rewrite E. cbn [rbind]. rewrite (IH k fuel h last _ q'); auto; cbn [it_pending it_index it_value]; try lia.
    + cbn. rewrite V, En. auto.
    + unfold wadd. rewrite N.mod_small; lia.
Qed.

Lemma emitted_all : forall l v, emitted (S (length l)) v l = v :: l.
Proof.
  induction l as [|w l IH]; intros v; cbn [emitted length]; auto.
  f_equal. cbn [next_value tl]. apply IH.
Qed.

Lemma last_cons : forall (l : list str) w v, List.last (w :: l) v = List.last l w.
Proof.
  induction l as [|a l IH]; intros w v; auto.
  change (List.last (w :: a :: l) v) with (List.last (a :: l) v). rewrite !IH. auto.
Qed.

Lemma emitted_more : forall l v k, emitted (S (length l) + k) v l = v :: l ++ repeat (List.last l v) k.
Proof.
  induction l as [|w l IH]; intros v k.
  - cbn. f_equal. induction k; cbn; auto. f_equal; auto.
  - change (emitted (S (length (w :: l)) + k) v (w :: l)) with (v :: emitted (S (length l) + k) w l).
    rewrite IH, last_cons. auto.
Qed.

Lemma iterate_ok : forall fuel h d t n, unf h (d_root d) t -> tsize t + n + 1 < fuel ->
  (d_size d < W)%N -> d_size d = N.of_nat n ->
  iterate fuel h d = Ok (emitted n (next_value [] (words t)) (tl (words t))).
Proof.
  intros fuel h d t n U L Lw En. unfold iterate, dawg_begin.
  destruct (advance_ok fuel h (Iter [RootPrefix (d_root d)] [] 0%N) [([], t)]) as (it' & q' & E & F' & L' & Ii & V & Ee).
  - cbn. constructor; [|constructor]. split; auto.
  - unfold qsize. cbn. lia.
  - rewrite E. cbn [rbind]. rewrite (iterate_loop_ok n fuel fuel h (d_size d) it' q'); auto; try lia.
    + rewrite V, Ee. auto.
    + unfold qsize in *. cbn in L'. unfold qsize. lia.
    + rewrite Ii. cbn. lia.
Qed.
