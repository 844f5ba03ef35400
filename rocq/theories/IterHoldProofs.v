(** * IterHoldProofs: how many prefixes an iterator over a dictionary holds. *)
From Coq Require Import Sorting.Sorted Sorting.Permutation.
From Verif Require Import Base Spec ModelTransducer ModelDawg ModelState ModelIterator SpecIterator.
From Verif Require Import TreeProofs HeapProofs IterProofs PointerProofs MemoryProofs BoundProofs IteratorProofs.
Set Implicit Arguments. Unset Strict Implicit.
Local Open Scope nat_scope.

Notation item := (list ascii * tree)%type (only parsing).

(** Taking the strings [P] from the queue [q], one after another, leaves [q']. *)
Inductive pops : list item -> list str -> list item -> Prop :=
| pops_none : forall q, pops q [] q
| pops_one : forall s f es q P q', pops (q ++ children s es) P q' -> pops ((s, T f es) :: q) (s :: P) q'.

Lemma pops_app q P q1 : pops q P q1 -> forall P' q2, pops q1 P' q2 -> pops q (P ++ P') q2.
Proof. induction 1; intros P' q2 H2; cbn; auto. constructor. auto. Qed.

Lemma enum_full_step s f es q : enum (fullq ((s, T f es) :: q)) = s :: enum (fullq (q ++ children s es)).
Proof.
  change (fullq ((s, T f es) :: q)) with ((s, T true (fulls es)) :: fullq q).
  rewrite enum_cons, children_fulls. cbn [app]. unfold fullq. now rewrite map_app.
Qed.

Lemma pops_enum q P q' : pops q P q' -> enum (fullq q) = P ++ enum (fullq q').
Proof. induction 1; [reflexivity|]. rewrite enum_full_step, IHpops. reflexivity. Qed.

Lemma qsorted_full q : qsorted q -> qsorted (fullq q).
Proof.
  unfold qsorted, fullq. intros H. apply Forall_forall. intros e I. apply in_map_iff in I. destruct I as ([s t] & <- & I).
  cbn. rewrite Forall_forall in H. apply full_sorted. exact (H _ I).
Qed.

Lemma before_full q : StronglySorted before q -> StronglySorted before (fullq q).
Proof.
  induction 1 as [|a q S IH F]; cbn; constructor; auto. rewrite Forall_forall in *. intros e I. apply in_map_iff in I.
  destruct I as (b & <- & I). exact (F _ I).
Qed.

Lemma firsts_in q : qsorted q -> forall w, In w (map fst q) -> In w (enum (fullq q)).
Proof.
  intros Sq w I. apply enum_In; [now apply qsorted_full|]. apply in_map_iff in I. destruct I as ([s t] & <- & I).
  exists s, (full t), []. rewrite app_nil_r. split; [|split; [reflexivity|destruct t; reflexivity]].
  unfold fullq. apply in_map_iff. exists (s, t). auto.
Qed.

Lemma pops_inv q P q' : pops q P q' -> qsorted q -> StronglySorted before q -> qsorted q' /\ StronglySorted before q'.
Proof.
  induction 1; intros Sq Sb; auto. destruct (qsorted_step _ _ _ _ Sq) as [St Sq']. apply IHpops; auto.
  eapply before_step; eauto.
Qed.

Lemma child_of s f es q c : qsorted ((s, T f es) :: q) -> StronglySorted before ((s, T f es) :: q) ->
  In (s ++ [c]) (enum (fullq (q ++ children s es))) -> In (s ++ [c]) (map fst (q ++ children s es)).
Proof.
  intros Sq Sb I. destruct (qsorted_step _ _ _ _ Sq) as [St Sq']. apply enum_In in I; [|now apply qsorted_full].
  destruct I as (s' & t' & u & I & E & _). unfold fullq in I. apply in_map_iff in I. destruct I as ([s1 t1] & X & I).
  injection X as -> _. apply in_map_iff. cbn [fst snd] in *. exists (s', t1). split; [|exact I]. cbn [fst].
  assert (u = []); [|subst u; now rewrite app_nil_r in E].
  apply in_app_iff in I. destruct I as [I|I].
  - inversion Sb as [|? ? _ F]; subst. rewrite Forall_forall in F. destruct (F _ I) as [F1 _]. cbn [fst] in F1.
    destruct u as [|x u]; [reflexivity|exfalso]. destruct (@exists_last _ (x :: u)) as (u' & y & Eu); [discriminate|].
    rewrite Eu, app_assoc in E. apply app_inj_tail in E. destruct E as [-> ->].
    destruct (shortlex_prefix s' u') as [->|Lp].
    + rewrite app_nil_r in F1. exact (shortlex_irrefl _ F1).
    + exact (shortlex_irrefl _ (shortlex_trans _ _ _ F1 Lp)).
  - unfold children in I. apply in_map_iff in I. destruct I as ([c' t2] & X & _). injection X as <- _. cbn [fst] in E.
    rewrite <- app_assoc in E. apply app_inv_head in E. injection E as _ E. now destruct u.
Qed.

(** What has been taken and what waits: the children of what has been taken. *)
Lemma pops_in q P q' : pops q P q' -> qsorted q -> StronglySorted before q -> forall w,
  In w (P ++ map fst q') <->
  In w (map fst q) \/ exists v c, w = v ++ [c] /\ In v P /\ In w (enum (fullq q)).
Proof.
  induction 1 as [q|s f es q P q' H IH]; intros Sq Sb w.
  - cbn. split; auto. intros [I|(v & c & _ & [] & _)]. exact I.
  - destruct (qsorted_step _ _ _ _ Sq) as [St Sq']. pose proof (before_step _ _ _ _ St Sb) as Sb'. specialize (IH Sq' Sb' w).
    rewrite enum_full_step. cbn [app In map fst]. rewrite IH, map_app, in_app_iff. split.
    + intros [->|[[I|I]|(v & c & -> & I & E)]]; auto.
      * right. pose proof (@firsts_in (q ++ children s es) Sq' w) as X. rewrite map_app, in_app_iff in X. specialize (X (or_intror I)).
        unfold children in I. rewrite map_map in I. apply in_map_iff in I. destruct I as ([c t] & <- & I). cbn [fst] in *.
        exists s, c. auto.
      * right. exists v, c. auto.
    + intros [[->|I]|(v & c & -> & [->|I] & [E|E])]; auto.
      * right. left. pose proof (child_of Sq Sb E) as X. rewrite map_app, in_app_iff in X. exact X.
      * right. right. eauto.
Qed.

Lemma sorted_app {A} (R : A -> A -> Prop) l1 l2 : StronglySorted R (l1 ++ l2) ->
  StronglySorted R l1 /\ StronglySorted R l2 /\ forall a b, In a l1 -> In b l2 -> R a b.
Proof.
  induction l1 as [|x l1 IH]; cbn; intros H.
  - split; [constructor|]. split; [exact H|]. intros a b [].
  - inversion H as [|? ? S F]; subst. destruct (IH S) as (S1 & S2 & C). rewrite Forall_forall in F. split; [|split; auto].
    + constructor; auto. apply Forall_forall. intros y I. apply F, in_app_iff. auto.
    + intros a b [<-|I] I2; auto. apply F, in_app_iff. auto.
Qed.

Lemma pops_nodup q P q' : pops q P q' -> qsorted q -> StronglySorted before q -> NoDup (P ++ map fst q').
Proof.
  intros H Sq Sb. destruct (pops_inv H Sq Sb) as [Sq' Sb'].
  pose proof (enum_sorted _ (qsorted_full Sq) (before_full Sb)) as So. rewrite (pops_enum H) in So.
  destruct (sorted_app So) as (S1 & _ & C). apply (StronglySorted_NoDup _ _ shortlex_irrefl).
  assert (S2 : StronglySorted shortlex_lt (map fst q')).
  { clear -Sb'. induction Sb' as [|a q S IH F]; cbn; constructor; auto. rewrite Forall_forall in *. intros w I.
    apply in_map_iff in I. destruct I as (b & <- & I). apply (F _ I). }
  assert (C' : forall a b, In a P -> In b (map fst q') -> shortlex_lt a b).
  { intros a b I1 I2. apply C; auto. now apply firsts_in. }
  clear -S1 S2 C'. induction S1 as [|a P S IH F]; cbn; auto. constructor.
  - apply IH. intros x y I1 I2. apply C'; [right|]; auto.
  - apply Forall_app. split; auto. apply Forall_forall. intros y I. apply C'; [left|]; auto.
Qed.

(** What has been taken up to [s]. *)
Lemma pops_upto q P s q' : pops q (P ++ [s]) q' -> qsorted q -> StronglySorted before q -> forall w,
  In w (P ++ [s]) <-> In w (enum (fullq q)) /\ (w = s \/ shortlex_lt w s).
Proof.
  intros H Sq Sb w. pose proof (enum_sorted _ (qsorted_full Sq) (before_full Sb)) as So. rewrite (pops_enum H) in So |- *.
  rewrite <- app_assoc in So. rewrite <- app_assoc. cbn [app] in *. destruct (sorted_app So) as (S1 & S2 & C). inversion S2 as [|? ? _ F]; subst.
  rewrite Forall_forall in F. rewrite !in_app_iff. cbn [In]. split.
  - intros [I|[E|[]]]; [|auto]. split; [auto|]. right. apply C; auto. left; auto.
  - intros [[I|[E|I]] [E'|L]]; auto.
    exfalso. exact (shortlex_irrefl _ (shortlex_trans _ _ _ L (F _ I))).
Qed.

Section Iterator.
  Variables (alloc : mem pcell -> ptr) (h : heap).
  Hypothesis HA : mallocator alloc.

  Lemma diter_loop_pops base rest B fuel : forall m os pend q,
    adds m base (os ++ rest) -> Forall2 (holds h os) pend q -> pend <> [] -> short B q -> qsize q < fuel ->
    exists m' os' pend' p n q' P s, diter_loop alloc h fuel m (map fst os) pend = Ok (m', map fst os', pend', p, n) /\
      adds m' base (os' ++ rest) /\ Forall2 (holds h os') pend' q' /\ short B q' /\ qsize q' < qsize q /\
      pops q (P ++ [s]) q' /\ length os' + length q = length os + length q' + length (P ++ [s]) /\
      ((nfin n = true /\ spells os' p s (match mget m' p with Some x => pc_node x | None => null end) /\
          length s <= B /\ enum q = s :: enum q') \/
       (nfin n = false /\ pend' = [] /\ enum q = [])).
  Proof using HA.
    induction fuel as [|fuel IH]; intros m os pend q Ha F NE Sh L; [lia|].
    destruct F as [|p [s [f es]] pend q Hp F]; [congruence|].
    inversion Sh as [|? ? Sh1 Sh2]; subst. cbn [fst snd] in Sh1.
    destruct Hp as (n0 & Sp & Up). cbn [fst snd] in Sp, Up.
    destruct (spells_in Sp) as (par & c & Hin).
    destruct (adds_get Ha (in_or_app _ rest _ (or_introl Hin))) as [G1 G2].
    destruct (unf_read _ _ _ Up) as (n & Rn & Gn & Sn & Un & Fn). cbn in Un, Fn.
    cbn [diter_loop]. rewrite (mread_ok G1 G2). cbn [rbind pc_node]. rewrite Rn. cbn [rbind].
    destruct (@push_children_ok alloc h HA base rest p s n0 (nedges n) es m os pend Un Ha Sp)
      as (m1 & os1 & E1 & Ha1 & new & -> & F1). rewrite E1.
    assert (Esk : skipn (length os) (map fst (os ++ new)) = map fst new).
    { rewrite map_app, <- (map_length fst os), skipn_app, skipn_all, Nat.sub_diag. reflexivity. }
    rewrite Esk. clear Esk.
    assert (F' : Forall2 (holds h (os ++ new)) (pend ++ map fst new) (q ++ children s es)).
    { apply Forall2_app; [|exact F1]. apply (forall2_impl (P := holds h os)); [|exact F].
      intros a b. apply holds_incl, incl_appl, incl_refl. }
    assert (Sh' : short B (q ++ children s es)).
    { apply Forall_app. split; [exact Sh2|]. eapply short_children. exact Sh1. }
    assert (Ln : length new = length (children s es)).
    { rewrite <- (map_length fst new). clear -F1. induction F1; cbn; auto. }
    pose proof (qsize_step s f es q) as Q. rewrite enum_cons. rewrite Fn in *.
    destruct (nfin n) eqn:En.
    - eexists _, _, _, _, _, (q ++ children s es), [], s. split; [reflexivity|]. split; [exact Ha1|].
      split; [exact F'|]. split; [exact Sh'|]. split; [lia|]. split; [repeat constructor|].
      split; [rewrite !app_length; cbn [length]; lia|]. left. split; [exact En|].
      split; [|split; [|reflexivity]].
      + assert (G3 : mget m1 p = Some (PCell n0 par c)).
        { eapply adds_get; [exact Ha1|]. apply in_or_app. left. apply in_or_app. now left. }
        rewrite G3. cbn. eapply spells_incl; [|exact Sp]. apply incl_appl, incl_refl.
      + lia.
    - destruct (pend ++ map fst new) as [|r rest'] eqn:Er.
      + assert (E0 : q ++ children s es = []) by (inversion F'; reflexivity). eexists _, _, _, _, _, [], [], s. split; [reflexivity|].
        split; [exact Ha1|]. split; [constructor|]. split; [constructor|].
        split; [change (qsize []) with 0; lia|]. split; [constructor; rewrite E0; constructor|].
        apply app_eq_nil in E0. destruct E0 as [-> E0]. rewrite E0 in Ln.
        split; [rewrite !app_length; cbn [length] in *; lia|]. right. cbn [app]. rewrite E0. auto.
      + destruct (IH m1 (os ++ new) (r :: rest') (q ++ children s es) Ha1 F') as
          (m2 & os2 & pend2 & p2 & n2 & q2 & P2 & s2 & E2 & Ha2 & F2 & Sh3 & L2 & Po & Le & D2); auto; [discriminate|lia|].
        exists m2, os2, pend2, p2, n2, q2, (s :: P2), s2. split; [exact E2|]. split; [exact Ha2|]. split; [exact F2|].
        split; [exact Sh3|]. split; [lia|]. split; [cbn [app]; constructor; exact Po|].
        split; [rewrite !app_length in *; cbn [length] in *; lia|]. exact D2.
  Qed.

  (** What an iterator over the tree [t] that shows the [k]-th word holds. *)
  Definition iholds (t : tree) (k : nat) (os : list (ptr * pcell)) (it : diter) (q : list item) : Prop :=
    going h os it q (tsize t) /\ enum q = skipn (S k) (words t) /\
    exists P, pops [([], t)] P q /\ length os = length P + length q /\
      match nth_error (words t) k with
      | Some s => exists P', P = P' ++ [s]
      | None => q = []
      end.

  Lemma nth_error_skipn {A} (l : list A) : forall k, nth_error l k = hd_error (skipn k l).
  Proof. induction l as [|a l IH]; intros [|k]; cbn; auto. Qed.

  Lemma iholds_advance base rest t k fuel m os it q P0 :
    adds m base (os ++ rest) -> going h os it q (tsize t) -> tsize t < fuel -> enum q = skipn k (words t) ->
    pops [([], t)] P0 q -> length os = length P0 + length q ->
    exists m' os' it' q', diter_advance fuel alloc h m it = Ok (m', it') /\
      adds m' base (os' ++ rest) /\ iholds t k os' it' q' /\ di_index it' = di_index it.
  Proof using HA.
    intros Ha Gq Hf Eq Po Lo. pose proof Gq as [g1 g2 g3 g4]. unfold diter_advance. unfold iholds.
    rewrite nth_error_skipn, <- Eq.
    assert (Tl : skipn (S k) (words t) = tl (enum q)).
    { rewrite Eq. clear. revert k. induction (words t) as [|x l IH]; intros [|k]; auto. cbn [skipn] in *. apply IH. }
    destruct (di_pending it) as [|p ps] eqn:Ep.
    - inversion g2; subst. exists m, os, it, []. split; [reflexivity|]. split; [exact Ha|]. split; [|reflexivity].
      split; [exact Gq|]. split; [now rewrite Tl|]. exists P0. rewrite enum_nil. cbn [hd_error]. auto.
    - rewrite g1. assert (g2' := g2).
      destruct (@diter_loop_pops base rest (tsize t) fuel m os (p :: ps) q Ha g2) as
        (m' & os' & pend' & p' & n & q' & P & s & E & Ha' & F' & Sh' & L & Po' & Le & D); auto; [discriminate|lia|].
      rewrite E. cbn [rbind]. pose proof (pops_app Po Po') as Po2.
      destruct D as [(En & Sp & Ls & Ee)|(En & -> & Ee)]; rewrite En.
      + rewrite (@pcell_str_ok m' base (os' ++ rest) os' _ _ _ Ha' (incl_appl _ (incl_refl _)) Sp fuel) by lia.
        cbn [rbind]. eexists _, _, _, q'. split; [reflexivity|]. split; [exact Ha'|]. split; [|reflexivity].
        split; [constructor; cbn; auto; lia|]. split; [rewrite Tl, Ee; reflexivity|].
        exists (P0 ++ P ++ [s]). split; [exact Po2|]. split; [rewrite app_length; lia|]. rewrite Ee. cbn [hd_error].
        exists (P0 ++ P). now rewrite app_assoc.
      + inversion F'; subst q'. eexists _, _, _, []. split; [reflexivity|]. split; [exact Ha'|]. split; [|reflexivity].
        split; [constructor; cbn; auto; first [lia|constructor]|]. split; [rewrite Tl, Ee; reflexivity|].
        exists (P0 ++ P ++ [s]). split; [exact Po2|]. split; [rewrite app_length; lia|]. rewrite Ee. reflexivity.
  Qed.

  Lemma iholds_begin base rest d t fuel m : unf h (d_root d) t -> adds m base rest -> tsize t < fuel ->
    exists m' os it q, diter_begin fuel alloc h m d = Ok (m', it) /\ adds m' base (os ++ rest) /\ iholds t 0 os it q.
  Proof using HA.
    intros U Ha Hf. unfold diter_begin.
    destruct (mget_mnew m (PCell (d_root d) null Ascii.zero) HA) as (p & m1 & E & G1 & G2 & G3 & G4 & G5).
    rewrite E. set (o := (p, PCell (d_root d) null Ascii.zero)).
    assert (Ha1 : adds m1 base ([o] ++ rest)) by (cbn; eapply adds_one; eauto).
    destruct (@iholds_advance base rest t 0 fuel m1 [o] (DIter [p] [p] [] 0) [([], t)] [] Ha1) as
      (m2 & os & it & q & E2 & Ha2 & I2 & _); auto.
    - constructor; cbn; auto.
      + constructor; [|constructor]. exists (d_root d). split; [|exact U]. cbn. eapply spells_root. left. reflexivity.
      + constructor; [cbn; lia|constructor].
      + unfold qsize. cbn. lia.
    - constructor.
    - exists m2, os, it, q. auto.
  Qed.

  Lemma iholds_next base rest t k fuel m os it q : adds m base (os ++ rest) -> iholds t k os it q -> tsize t < fuel ->
    exists m' os' it' q', diter_next fuel alloc h m it = Ok (m', it') /\ adds m' base (os' ++ rest) /\ iholds t (S k) os' it' q'.
  Proof using HA.
    intros Ha (Gq & Eq & P & Po & Lo & _) Hf.
    destruct (@iholds_advance base rest t (S k) fuel m os it q P Ha Gq Hf Eq Po Lo) as (m' & os' & it' & q' & E & Ha' & I & _).
    unfold diter_next. rewrite E. cbn [rbind]. eexists m', os', _, q'. split; [reflexivity|]. split; [exact Ha'|].
    destruct I as ([g1 g2 g3 g4] & I). split; [constructor; cbn; auto|exact I].
  Qed.

  Lemma iholds_iterations base d t fuel : unf h (d_root d) t -> tsize t < fuel -> forall k m os it q j,
    adds m base os -> iholds t j os it q ->
    exists m' os' it' q', iterations fuel alloc h d (repeat (Next 0) k) m [Some (j, it)] = Ok (m', [Some (j + k, it')]) /\
      adds m' base os' /\ iholds t (j + k) os' it' q'.
  Proof using HA.
    intros U Hf. induction k as [|k IH]; intros m os it q j Ha I; cbn [repeat iterations].
    - exists m, os, it, q. rewrite Nat.add_0_r. auto.
    - cbn [iteration_step nth_error]. rewrite <- (app_nil_r os) in Ha.
      destruct (iholds_next Ha I Hf) as (m1 & os1 & it1 & q1 & E1 & Ha1 & I1). rewrite E1. cbn [rbind place].
      rewrite app_nil_r in Ha1. destruct (IH m1 os1 it1 q1 (S j) Ha1 I1) as (m2 & os2 & it2 & q2 & E2 & R).
      exists m2, os2, it2, q2. rewrite Nat.add_succ_r. auto.
  Qed.
End Iterator.
