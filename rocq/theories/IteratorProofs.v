(** * IteratorProofs: iterators over a dictionary and their prefixes. *)
From Coq Require Import Permutation.
From Verif Require Import Base Spec ModelTransducer ModelDawg ModelState ModelIterator SpecIterator.
From Verif Require Import TreeProofs HeapProofs IterProofs PointerProofs MemoryProofs.
Set Implicit Arguments. Unset Strict Implicit.
Local Open Scope nat_scope.

Notation prefixes := (list (ptr * pcell)) (only parsing).

(** Following the parents from [p] one reads [s], and [n] is the node of [p]. *)
Inductive spells (os : prefixes) : ptr -> str -> ptr -> Prop :=
| spells_root : forall p n c, In (p, PCell n null c) os -> spells os p [] n
| spells_child : forall p n par c s m, In (p, PCell n par c) os -> spells os par s m ->
    spells os p (s ++ [c]) n.

Lemma spells_incl os os' p s n : incl os os' -> spells os p s n -> spells os' p s n.
Proof. intros I H. induction H; econstructor; eauto. Qed.

Lemma spells_in os p s n : spells os p s n -> exists par c, In (p, PCell n par c) os.
Proof. intros H. inversion H; subst; eauto. Qed.

Lemma pcell_str_ok m base all os p s n : adds m base all -> incl os all -> spells os p s n ->
  forall fuel, length s < fuel -> pcell_str fuel m p = Ok s.
Proof.
  intros HA I H. induction H as [p n c Hin|p n par c s k Hin Hs IH]; intros fuel Hf; destruct fuel as [|fuel]; try lia;
    cbn [pcell_str].
  - destruct (adds_get HA (I _ Hin)) as [G1 G2]. rewrite (mread_ok G1 G2). cbn [rbind pc_parent].
    now rewrite N.eqb_refl.
  - destruct (adds_get HA (I _ Hin)) as [G1 G2]. rewrite (mread_ok G1 G2). cbn [rbind pc_parent pc_label].
    destruct (spells_in Hs) as (par' & c' & Hin'). destruct (adds_get HA (I _ Hin')) as [G3 _].
    destruct (N.eqb_spec par null); [contradiction|]. cbn [negb].
    rewrite app_length in Hf. cbn in Hf. rewrite IH by lia. reflexivity.
Qed.

(** A pointer in the queue and the string and subtree it stands for. *)
Definition holds (h : heap) (os : prefixes) (p : ptr) (e : list ascii * tree) : Prop :=
  exists n, spells os p (fst e) n /\ unf h n (snd e).

Lemma holds_incl h os os' p e : incl os os' -> holds h os p e -> holds h os' p e.
Proof. intros I (n & S & U). exists n. split; auto. eapply spells_incl; eauto. Qed.

(** Strings in the queue are not longer than the tree is large. *)
Definition short (B : nat) (q : list (list ascii * tree)) : Prop :=
  Forall (fun e => length (fst e) + tsize (snd e) <= B) q.

Lemma sizes_In ts t : In t ts -> tsize t <= sizes ts.
Proof.
  induction ts as [|a ts IH]; intros H; [destruct H|]. unfold sizes in *. cbn.
  destruct H as [->|H]; [lia|]. specialize (IH H). lia.
Qed.

Lemma short_children B s f es : length s + tsize (T f es) <= B -> short B (children s es).
Proof.
  intros H. unfold short, children. apply Forall_forall. intros e He. apply in_map_iff in He.
  destruct He as ([c t] & <- & Hin). cbn [fst snd]. rewrite app_length. cbn [length].
  assert (tsize (T f es) = S (sizes (map snd es))) as E.
  { pose proof (qsize_step s f es []) as Q. unfold qsize in Q. cbn [map app] in Q.
    unfold children in Q. rewrite map_map in Q. cbn [snd] in Q. unfold sizes in Q at 1. cbn in Q.
    rewrite Nat.add_0_r in Q. exact Q. }
  rewrite E in H. assert (tsize t <= sizes (map snd es)); [|lia]. apply sizes_In.
  apply in_map_iff. exists (c, t). auto.
Qed.

Section Iterator.
  Variables (alloc : mem pcell -> ptr) (h : heap).
  Hypothesis HA : mallocator alloc.

  Lemma push_children_ok base rest p s n : forall edges es m os pend,
    unfs h edges es -> adds m base (os ++ rest) -> spells os p s n ->
    exists m' os', push_children alloc m p edges (map fst os) pend =
        (m', map fst os', pend ++ skipn (length os) (map fst os')) /\
      adds m' base (os' ++ rest) /\ (exists new, os' = os ++ new /\
        Forall2 (holds h os') (map fst new) (children s es)).
  Proof using HA.
    induction edges as [|[c t] edges IH]; intros es m os pend U Ha Hs; cbn [push_children].
    - inversion U; subst. exists m, os. split.
      + f_equal. rewrite <- (map_length fst os). rewrite skipn_all. now rewrite app_nil_r.
      + split; [exact Ha|]. exists []. rewrite app_nil_r. split; [reflexivity|constructor].
    - inversion U as [|? ? tt ? ts Ut Us]; subst.
      destruct (mget_mnew m (PCell t p c) HA) as (child & m1 & E & G1 & G2 & G3 & G4 & G5).
      rewrite E. set (o := (child, PCell t p c)).
      assert (Ha1 : adds m1 base ((os ++ [o]) ++ rest)).
      { rewrite <- app_assoc. cbn [app]. eapply adds_perm; [apply Permutation_middle|].
        eapply adds_one; eauto. }
      assert (Hs1 : spells (os ++ [o]) p s n).
      { eapply spells_incl; [|exact Hs]. apply incl_appl, incl_refl. }
      destruct (IH ts m1 (os ++ [o]) (pend ++ [child]) Us Ha1 Hs1) as (m' & os' & E' & Ha' & new & -> & F).
      exists m', ((os ++ [o]) ++ new). rewrite map_app in E'. cbn [map fst o] in E'. rewrite E'. split.
      + f_equal. rewrite app_length. cbn [length]. rewrite <- !app_assoc. cbn [app].
        rewrite !map_app. cbn [map fst o]. f_equal.
        rewrite <- (map_length fst os).
        rewrite !skipn_app.
        replace (length (map fst os) + 1 - length (map fst os)) with 1 by lia.
        rewrite Nat.sub_diag. rewrite (skipn_all2 (map fst os)) by lia.
        rewrite (skipn_all2 (map fst os)) by lia. cbn.
        destruct (length (map fst os)); reflexivity.
      + split; [exact Ha'|]. exists (o :: new). split; [now rewrite <- app_assoc|].
        cbn [map children]. constructor; [|exact F].
        exists t. cbn [fst snd o]. split; [|exact Ut].
        eapply spells_child; [|eapply spells_incl; [|exact Hs1]; apply incl_appl, incl_refl].
        apply in_or_app. left. apply in_or_app. right. left. reflexivity.
  Qed.

  Lemma diter_loop_ok base rest B fuel : forall m os pend q,
    adds m base (os ++ rest) -> Forall2 (holds h os) pend q -> pend <> [] -> short B q -> qsize q < fuel ->
    exists m' os' pend' p n q', diter_loop alloc h fuel m (map fst os) pend = Ok (m', map fst os', pend', p, n) /\
      adds m' base (os' ++ rest) /\ Forall2 (holds h os') pend' q' /\ short B q' /\ qsize q' < qsize q /\
      ((nfin n = true /\ exists s, spells os' p s (match mget m' p with Some x => pc_node x | None => null end) /\
          length s <= B /\ enum q = s :: enum q') \/
       (nfin n = false /\ pend' = [] /\ enum q = [])).
  Proof using HA.
    induction fuel as [|fuel IH]; intros m os pend q Ha F NE Sh L; [lia|].
    destruct F as [|p [s [f es]] pend q Hp F]; [congruence|].
    inversion Sh as [|? ? Sh1 Sh2]; subst. cbn [fst snd] in Sh1.
    destruct Hp as (n0 & Sp & Up). cbn [fst snd] in Sp, Up.
    destruct (spells_in Sp) as (par & c & Hin).
    destruct (adds_get Ha (in_or_app _ rest _ (or_introl Hin))) as [G1 G2].
    destruct (unf_read _ _ _ Up) as (n & Rn & Gn & Sn & Un & Fn). cbn in Un, Fn.
    cbn [diter_loop]. rewrite (mread_ok G1 G2). cbn [rbind pc_node]. rewrite Rn. cbn [rbind].
    destruct (@push_children_ok base rest p s n0 (nedges n) es m os pend Un Ha Sp)
      as (m1 & os1 & E1 & Ha1 & new & -> & F1). rewrite E1.
    assert (Esk : skipn (length os) (map fst (os ++ new)) = map fst new).
    { rewrite map_app, <- (map_length fst os), skipn_app, skipn_all, Nat.sub_diag. reflexivity. }
    rewrite Esk. clear Esk.
    assert (F' : Forall2 (holds h (os ++ new)) (pend ++ map fst new) (q ++ children s es)).
    { apply Forall2_app; [|exact F1]. apply (forall2_impl (P := holds h os)); [|exact F].
      intros a b. apply holds_incl, incl_appl, incl_refl. }
    assert (Sh' : short B (q ++ children s es)).
    { apply Forall_app. split; [exact Sh2|]. eapply short_children. exact Sh1. }
    pose proof (qsize_step s f es q) as Q. rewrite enum_cons. rewrite Fn in *.
    destruct (nfin n) eqn:En.
    - eexists _, _, _, _, _, (q ++ children s es). split; [reflexivity|]. split; [exact Ha1|].
      split; [exact F'|]. split; [exact Sh'|]. split; [lia|]. left. split; [exact En|].
      exists s. split; [|split; [|reflexivity]].
      + assert (G3 : mget m1 p = Some (PCell n0 par c)).
        { eapply adds_get; [exact Ha1|]. apply in_or_app. left. apply in_or_app. now left. }
        rewrite G3. cbn. eapply spells_incl; [|exact Sp]. apply incl_appl, incl_refl.
      + lia.
    - destruct (pend ++ map fst new) as [|r rest'] eqn:Er.
      + inversion F' as [E0|]. eexists _, _, _, _, _, []. split; [reflexivity|].
        split; [exact Ha1|]. split; [constructor|]. split; [constructor|].
        split; [change (qsize []) with 0; lia|]. right. auto.
      + destruct (IH m1 (os ++ new) (r :: rest') (q ++ children s es) Ha1 F') as
          (m2 & os2 & pend2 & p2 & n2 & q2 & E2 & Ha2 & F2 & Sh3 & L2 & D2); auto; [discriminate|lia|].
        exists m2, os2, pend2, p2, n2, q2. split; [exact E2|]. split; [exact Ha2|]. split; [exact F2|].
        split; [exact Sh3|]. split; [lia|]. exact D2.
  Qed.

  (** What is known about an iterator that owns [os]. *)
  Record going (os : prefixes) (it : diter) (q : list (list ascii * tree)) (B : nat) : Prop := Going {
    go_own : di_prefixes it = map fst os;
    go_pending : Forall2 (holds h os) (di_pending it) q;
    go_short : short B q;
    go_size : qsize q <= B }.

  Lemma diter_advance_ok base rest B fuel m os it q :
    adds m base (os ++ rest) -> going os it q B -> B < fuel ->
    exists m' os' it' q', diter_advance fuel alloc h m it = Ok (m', it') /\
      adds m' base (os' ++ rest) /\ going os' it' q' B /\ di_index it' = di_index it /\
      di_value it' = next_value (di_value it) (enum q) /\ enum q' = tl (enum q).
  Proof using HA.
    intros Ha [g1 g2 g3 g4] Hf. unfold diter_advance. destruct (di_pending it) as [|p ps] eqn:Ep.
    - inversion g2; subst. exists m, os, it, []. split; [reflexivity|]. split; [exact Ha|].
      split; [constructor; auto; [rewrite Ep; constructor]|]. auto.
    - rewrite g1.
      destruct (@diter_loop_ok base rest B fuel m os (p :: ps) q Ha g2) as
        (m' & os' & pend' & p' & n & q' & E & Ha' & F' & Sh' & L & D); auto; [discriminate|lia|].
      rewrite E. cbn [rbind]. destruct D as [(En & s & Sp & Ls & Ee)|(En & -> & Ee)]; rewrite En.
      + rewrite (@pcell_str_ok m' base (os' ++ rest) os' _ _ _ Ha' (incl_appl _ (incl_refl _)) Sp fuel) by lia.
        cbn [rbind]. eexists _, _, _, q'. split; [reflexivity|]. split; [exact Ha'|].
        split; [constructor; cbn; auto; lia|]. cbn. rewrite Ee. auto.
      + eexists _, _, _, []. split; [reflexivity|]. split; [exact Ha'|].
        split; [constructor; cbn; auto; [constructor|lia]|]. cbn. rewrite Ee. auto.
  Qed.

  Lemma delete_prefixes_ok base rest : forall os m, adds m base (os ++ rest) ->
    exists m', delete_prefixes m (map fst os) = Ok m' /\ adds m' base rest.
  Proof.
    induction os as [|[p x] os IH]; intros m Ha.
    - exists m. auto.
    - cbn [map fst delete_prefixes app] in *. destruct (adds_get Ha (or_introl eq_refl)) as [G _].
      destruct (N.eqb_spec p null); [contradiction|]. destruct (adds_free Ha) as [E Ha1]. rewrite E. cbn [rbind].
      apply IH; exact Ha1.
  Qed.
End Iterator.
