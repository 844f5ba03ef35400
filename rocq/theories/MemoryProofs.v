(** * MemoryProofs: queries in memory do what queries on values do. *)
From Coq Require Import Permutation.
From Verif Require Import Base Spec ModelTransducer ModelDawg ModelQuery ModelState ModelMemory.
From Verif Require Import SpecState SpecMemory PointerProofs.
Set Implicit Arguments. Unset Strict Implicit.

(** ** Memories that consist of a base and some more objects *)
Definition adds {A} (m base : mem A) (l : list (ptr * A)) : Prop :=
  NoDup (map fst l) /\
  (forall p x, In (p, x) l -> p <> null /\ mget base p = None /\ mget m p = Some x) /\
  (forall p, ~ In p (map fst l) -> mget m p = mget base p) /\
  (forall p, mconst m p = mconst base p).

(** The same contents, and the same of them constant. *)
Definition alike {A} (m m' : mem A) : Prop :=
  (forall p, mget m p = mget m' p) /\ (forall p, mconst m p = mconst m' p).

Lemma alike_refl {A} (m : mem A) : alike m m.
Proof. split; reflexivity. Qed.

Lemma adds_nil {A} (m base : mem A) : alike m base -> adds m base [].
Proof. intros [H C]. split; [constructor|]. split; [intros ? ? []|]. split; [intros p _; apply H|exact C]. Qed.

Lemma adds_same {A} (m base : mem A) : adds m base [] -> alike m base.
Proof. intros (_ & _ & H & C). split; [intros p; apply H; intros []|exact C]. Qed.

Lemma adds_ext {A} (m m' base : mem A) l : alike m' m -> adds m base l -> adds m' base l.
Proof.
  intros [E C'] (N & I & O & C). split; [exact N|]. split; [intros; rewrite E; auto|].
  split; intros; [rewrite E; auto|rewrite C'; auto].
Qed.

Lemma adds_perm {A} (m base : mem A) l l' : Permutation l l' -> adds m base l -> adds m base l'.
Proof.
  intros P (N & I & O & C). split; [|split; [|split; [|exact C]]].
  - eapply Permutation_NoDup; [|exact N]. now apply Permutation_map.
  - intros p x Hin. apply I. eapply Permutation_in; [apply Permutation_sym, P|exact Hin].
  - intros p Hp. apply O. intros Hin. apply Hp.
    eapply Permutation_in; [apply Permutation_map, P|exact Hin].
Qed.

Lemma adds_one {A} (m m' base : mem A) l p x : adds m base l ->
  p <> null -> mget m p = None -> mget m' p = Some x -> (forall q, q <> p -> mget m' q = mget m q) ->
  (forall q, mconst m' q = mconst m q) ->
  adds m' base ((p, x) :: l).
Proof.
  intros (N & I & O & C) Hn Hf Hx Ho Hc.
  assert (Hp : ~ In p (map fst l)).
  { intros Hin. apply in_map_iff in Hin. destruct Hin as ([q y] & E & Hin). cbn in E. subst q.
    apply I in Hin. destruct Hin as (_ & _ & G). congruence. }
  split; [|split; [|split; [|intros q; now rewrite Hc]]].
  - cbn. constructor; auto.
  - intros q y [E|Hin].
    + inversion E; subst. split; [auto|]. split; [|auto]. now rewrite <- O.
    + destruct (I q y Hin) as (G1 & G2 & G3). split; [auto|]. split; [auto|].
      rewrite Ho; auto. intros ->. congruence.
  - intros q Hq. cbn in Hq. rewrite Ho by (intros ->; tauto). apply O. tauto.
Qed.

Lemma adds_get {A} (m base : mem A) l p x : adds m base l -> In (p, x) l -> p <> null /\ mget m p = Some x.
Proof. intros (_ & I & _) H. destruct (I p x H) as (? & ? & ?). auto. Qed.

Lemma adds_free {A} (m base : mem A) l p x : adds m base ((p, x) :: l) ->
  mfree m p = Ok (mdel m p) /\ adds (mdel m p) base l.
Proof.
  intros (N & I & O & C). cbn in N. inversion N as [|? ? Np N']; subst.
  destruct (I p x (or_introl eq_refl)) as (Hn & Hb & Hg).
  assert (Cp : mconst m p = false) by (rewrite C; now apply mconst_none). split.
  - unfold mfree. rewrite (mread_ok Hn Hg). cbn [rbind]. now rewrite Cp.
  - split; [exact N'|]. split; [|split; [|intros q; now rewrite mconst_mdel]].
    + intros q y Hin. destruct (I q y (or_intror Hin)) as (G1 & G2 & G3). split; [auto|]. split; [auto|].
      rewrite mget_mdel_other; auto. intros ->. apply Np. apply in_map_iff. exists (q, y). auto.
    + intros q Hq. destruct (N.eq_dec p q) as [<-|Hpq].
      * now rewrite mget_mdel_same.
      * rewrite mget_mdel_other by exact Hpq. apply O. cbn. tauto.
Qed.

Lemma adds_preserved {A} (m base : mem A) l p x : adds m base l -> mget base p = Some x -> mget m p = Some x.
Proof.
  intros (N & I & O & C) H. rewrite O; auto. intros Hin. apply in_map_iff in Hin.
  destruct Hin as ([q y] & E & Hin). cbn in E. subst q. apply I in Hin. destruct Hin as (_ & G & _). congruence.
Qed.

(** The same for the lists of positions. *)
Lemma consists_ext m m' base cs : alike m' m -> consists_of m base cs -> consists_of m' base cs.
Proof.
  intros [E C'] (S & N & B & F & C). split; [|split; [exact N|split; [exact B|split]]].
  - intros p l q Hin. apply (@segment_frame m); [intros; apply E|]. auto.
  - intros a Ha. rewrite E. auto.
  - intros a. rewrite C'. auto.
Qed.

Lemma consists_trans m m' base cs cs' : consists_of m base cs -> consists_of m' m cs' ->
  consists_of m' base (cs' ++ cs).
Proof.
  intros H H'. pose proof H as (S & N & B & F & C). pose proof H' as (S' & N' & B' & F' & C').
  assert (EA : addresses (cs' ++ cs) = addresses cs' ++ addresses cs) by (unfold addresses; apply flat_map_app).
  assert (D : forall a, In a (addresses cs') -> ~ In a (addresses cs)).
  { intros a Ha Hin. apply B' in Ha. unfold addresses in Hin. apply in_flat_map in Hin.
    destruct Hin as ([[p0 l0] q0] & Hc & Hin). cbn in Hin.
    apply in_map_iff in Hin. destruct Hin as ([a' x] & E & Hin). cbn in E. subst a'.
    apply in_split in Hin. destruct Hin as (l1 & l2 & ->).
    specialize (S _ _ _ Hc). destruct (segment_get S) as [_ G]. congruence. }
  split; [|split; [|split; [|split]]].
  - intros p0 l0 q0 Hin. apply in_app_or in Hin. destruct Hin as [Hin|Hin]; [now apply S'|].
    apply (@base_segment m' m cs'); [exact H'|]. now apply S.
  - rewrite EA. clear - N N' D.
    induction (addresses cs') as [|a as_ IH]; [exact N|]. cbn. inversion N'; subst. constructor.
    + rewrite in_app_iff. intros [Hin|Hin]; [contradiction|]. eapply D; [now left|exact Hin].
    + apply IH; auto. intros b Hb. apply D. now right.
  - intros a Ha. rewrite EA, in_app_iff in Ha. destruct Ha as [Ha|Ha]; [|auto].
    rewrite <- F; auto.
  - intros a Ha. rewrite EA, in_app_iff in Ha. rewrite F', F; tauto.
  - intros a. rewrite C', C. reflexivity.
Qed.

Lemma adds_trans {A} (m m' base : mem A) l l' : adds m base l -> adds m' m l' -> adds m' base (l' ++ l).
Proof.
  intros (N & I & O & C) (N' & I' & O' & C').
  assert (D : forall a, In a (map fst l') -> ~ In a (map fst l)).
  { intros a Ha Hin. apply in_map_iff in Ha. destruct Ha as ([a' x] & E & Ha). cbn in E. subst a'.
    apply in_map_iff in Hin. destruct Hin as ([a' y] & E & Hin). cbn in E. subst a'.
    destruct (I' _ _ Ha) as (_ & G & _). destruct (I _ _ Hin) as (_ & _ & G'). congruence. }
  split; [|split; [|split]].
  - rewrite map_app. clear - N N' D. induction (map fst l') as [|a as_ IH]; [exact N|]. cbn. inversion N'; subst. constructor.
    + rewrite in_app_iff. intros [Hin|Hin]; [contradiction|]. eapply D; [now left|exact Hin].
    + apply IH; auto. intros b Hb. apply D. now right.
  - intros p x Hin. apply in_app_or in Hin. destruct Hin as [Hin|Hin].
    + destruct (I' _ _ Hin) as (G1 & G2 & G3). split; [auto|]. split; [|auto].
      rewrite <- O; auto. intros J. revert J. apply D. apply in_map_iff. exists (p, x). auto.
    + destruct (I _ _ Hin) as (G1 & G2 & G3). split; [auto|]. split; [auto|].
      rewrite O'; auto. intros J. apply (D p J). apply in_map_iff. exists (p, x). auto.
  - intros p Hp. rewrite map_app, in_app_iff in Hp. rewrite O', O; tauto.
  - intros p. rewrite C', C. reflexivity.
Qed.

Lemma consists_preserved m base cs p x : consists_of m base cs -> mget base p = Some x -> mget m p = Some x.
Proof. intros (_ & _ & B & F & _) H. rewrite F; auto. intros Hin. apply B in Hin. congruence. Qed.

(** ** What a query owns *)
Record own := Own { o_ptr : ptr; o_cell : icell; o_head : ptr; o_pos : list (ptr * position) }.

Definition owns (w base : world) (os : list own) : Prop :=
  consists_of (w_pos w) (w_pos base) (map (fun o => (o_head o, o_pos o, null)) os) /\
  adds (w_st w) (w_st base) (map (fun o => (ic_state (o_cell o), o_head o)) os) /\
  adds (w_int w) (w_int base) (map (fun o => (o_ptr o, o_cell o)) os).

Lemma owns_perm w base os os' : Permutation os os' -> owns w base os -> owns w base os'.
Proof.
  intros P (H1 & H2 & H3). split; [|split].
  - eapply world_perm; [|exact H1]. now apply Permutation_map.
  - eapply adds_perm; [|exact H2]. now apply Permutation_map.
  - eapply adds_perm; [|exact H3]. now apply Permutation_map.
Qed.

(** The same objects, and the same of them constant. *)
Definition alike_world (w w' : world) : Prop :=
  alike (w_pos w) (w_pos w') /\ alike (w_st w) (w_st w') /\ alike (w_int w) (w_int w').

Lemma owns_nil w base : alike_world w base -> owns w base [].
Proof.
  intros ([H1 C1] & H2 & H3). split; [|split; now apply adds_nil].
  split; [intros ? ? ? []|]. split; [constructor|]. split; [intros ? []|]. split; [intros a _; apply H1|exact C1].
Qed.

Lemma owns_alike w base : owns w base [] -> alike_world w base.
Proof.
  intros ((_ & _ & _ & F & C) & H2 & H3). split; [|split].
  - split; [|exact C]. intros p. apply F. intros [].
  - apply adds_same; exact H2.
  - apply adds_same; exact H3.
Qed.

Lemma owns_same w base : owns w base [] -> same_memory w base.
Proof. intros H. apply owns_alike in H. destruct H as ([H1 _] & [H2 _] & [H3 _]). split; [|split]; assumption. Qed.

Lemma owns_trans w w' base os os' : owns w base os -> owns w' w os' -> owns w' base (os' ++ os).
Proof.
  intros (H1 & H2 & H3) (G1 & G2 & G3). split; [|split]; rewrite map_app.
  - eapply consists_trans; eauto.
  - eapply adds_trans; eauto.
  - eapply adds_trans; eauto.
Qed.

Lemma owns_preserved w base os : owns w base os -> preserved base w.
Proof.
  intros (H1 & H2 & H3). split; [|split]; intros p x H.
  - eapply consists_preserved; eauto.
  - eapply adds_preserved; eauto.
  - eapply adds_preserved; eauto.
Qed.

(** An intersection with its state lies in memory. *)
Definition readable (w : world) (o : own) : Prop :=
  o_ptr o <> null /\ mget (w_int w) (o_ptr o) = Some (o_cell o) /\
  ic_state (o_cell o) <> null /\ mget (w_st w) (ic_state (o_cell o)) = Some (o_head o) /\
  segment (w_pos w) (o_head o) (o_pos o) null.

Lemma owns_get w base os o : owns w base os -> In o os -> readable w o.
Proof.
  intros (H1 & H2 & H3) Hin.
  assert (G3 := adds_get (p:=o_ptr o) (x:=o_cell o) H3 (in_map _ _ _ Hin)).
  assert (G2 := adds_get (p:=ic_state (o_cell o)) (x:=o_head o) H2 (in_map _ _ _ Hin)).
  destruct G2, G3. destruct H1 as (S & _). unfold readable.
  repeat (split; [assumption|]). apply S. apply in_map_iff. exists o. auto.
Qed.

Lemma readable_owns w base os o : owns w base os -> readable base o -> readable w o.
Proof.
  intros H (G1 & G2 & G3 & G4 & G5). destruct (owns_preserved H) as (_ & P2 & P3). destruct H as (H1 & _).
  split; [exact G1|]. split; [now apply P3|]. split; [exact G3|]. split; [now apply P2|].
  eapply base_segment; eauto.
Qed.

Lemma readable_in w base os rest root o : owns w base (os ++ rest) -> readable base root ->
  In o (root :: os) -> readable w o.
Proof.
  intros H Hr [<-|Hin]; [eapply readable_owns; eauto|]. eapply owns_get; [exact H|]. apply in_or_app. now left.
Qed.

(** Deleting an owned intersection. *)
Lemma delete_own w base o os fuel : owns w base (o :: os) -> (length (o_pos o) < fuel)%nat ->
  exists w', delete_intersection fuel w (o_ptr o) = Ok w' /\ owns w' base os.
Proof.
  intros H Hf. destruct (owns_get H (or_introl eq_refl)) as (G1 & G2 & G3 & G4 & _).
  destruct H as (H1 & H2 & H3). cbn [map] in *. unfold delete_intersection.
  destruct (N.eqb_spec (o_ptr o) null); [contradiction|]. rewrite (mread_ok G1 G2). cbn [rbind].
  unfold delete_state. destruct (N.eqb_spec (ic_state (o_cell o)) null); [contradiction|].
  rewrite (mread_ok G3 G4). cbn [rbind]. unfold destroy_state.
  destruct (world_delete H1 Hf) as (m & E & H1'). rewrite E. cbn [rbind].
  destruct (adds_free H2) as [E2 H2']. rewrite E2. cbn [rbind w_int w_pos w_st].
  destruct (adds_free H3) as [E3 H3']. rewrite E3. cbn [rbind].
  eexists. split; [reflexivity|]. split; [|split]; assumption.
Qed.

Definition bounded (L : nat) (os : list own) : Prop := forall o, In o os -> (length (o_pos o) <= L)%nat.

Lemma delete_owns base rest L fuel os : (L < fuel)%nat -> forall w,
  owns w base (os ++ rest) -> bounded L os ->
  exists w', delete_intersections fuel w (map o_ptr os) = Ok w' /\ owns w' base rest.
Proof.
  intros Hf. induction os as [|o os IH]; intros w H B.
  - exists w. split; [reflexivity|exact H].
  - cbn [map delete_intersections app] in *.
    destruct (@delete_own w base o (os ++ rest) fuel H) as (w1 & E & H1).
    { specialize (B o (or_introl eq_refl)). lia. }
    rewrite E. cbn [rbind]. apply IH; [exact H1|]. intros o' Ho. apply B. now right.
Qed.

(** ** What a pointer to an intersection stands for *)
Fixpoint denotes (os : list own) (p : ptr) (x : intersection) : Prop :=
  match x with
  | RootI n st => exists o, In o os /\ o_ptr o = p /\ ic_node (o_cell o) = n /\
      ic_parent (o_cell o) = null /\ map snd (o_pos o) = st
  | ChildI c n st y => exists o, In o os /\ o_ptr o = p /\ ic_label (o_cell o) = c /\
      ic_node (o_cell o) = n /\ map snd (o_pos o) = st /\ denotes os (ic_parent (o_cell o)) y
  end.

Lemma denotes_incl os os' x : incl os os' -> forall p, denotes os p x -> denotes os' p x.
Proof.
  intros I. induction x as [n st|c n st y IH]; intros p H; cbn in *.
  - destruct H as (o & Ho & H). exists o. auto.
  - destruct H as (o & Ho & H1 & H2 & H3 & H4 & H5). exists o. repeat (split; auto).
Qed.

Lemma denotes_own os p x : denotes os p x ->
  exists o, In o os /\ o_ptr o = p /\ ic_node (o_cell o) = i_node x /\ map snd (o_pos o) = i_state x.
Proof.
  destruct x as [n st|c n st y]; cbn.
  - intros (o & H1 & H2 & H3 & H4 & H5). exists o. auto.
  - intros (o & H1 & H2 & H3 & H4 & H5 & H6). exists o. auto.
Qed.

Lemma str_ok w os x : (forall o, In o os -> readable w o) -> forall p fuel,
  denotes os p x -> (length (i_str x) < fuel)%nat ->
  intersection_str fuel (w_int w) p = Ok (i_str x).
Proof.
  intros H. induction x as [n st|c n st y IH]; intros p fuel D Hf; destruct fuel as [|fuel]; try lia;
    cbn [intersection_str i_str] in *.
  - destruct D as (o & H1 & H2 & H3 & H4 & H5). destruct (H _ H1) as (G1 & G2 & _).
    rewrite H2 in *. rewrite (mread_ok G1 G2). cbn [rbind]. now rewrite H4, N.eqb_refl.
  - destruct D as (o & H1 & H2 & H3 & H4 & H5 & H6). destruct (H _ H1) as (G1 & G2 & _).
    rewrite H2 in *. rewrite (mread_ok G1 G2). cbn [rbind].
    destruct (denotes_own H6) as (o' & K1 & K2 & _). destruct (H _ K1) as (K3 & _).
    rewrite K2 in K3. destruct (N.eqb_spec (ic_parent (o_cell o)) null); [contradiction|]. cbn [negb].
    rewrite app_length in Hf. cbn in Hf. rewrite (IH _ fuel H6) by lia. cbn [rbind]. now rewrite H3.
Qed.

(** ** One query *)
Record related {R} (root : own) (os : list own) (it : lazy_query R) (q : query R) : Prop := Related {
  rel_pending : Forall2 (denotes (root :: os)) (l_pending it) (q_pending q);
  rel_edges : l_edges it = q_edges q;
  rel_owned : l_intersections it = map o_ptr os;
  rel_complete : l_complete it = q_complete q;
  rel_current : match q_current q with None => True | Some x => denotes (root :: os) (l_current it) x end;
  rel_candidate : l_candidate it = q_candidate q;
  rel_k : l_k it = q_k q;
  rel_i : l_i it = q_i q;
  rel_parents : Forall (fun o => ic_parent (o_cell o) <> null) os }.

Lemma forall2_impl {A B} (P Q : A -> B -> Prop) l1 l2 : (forall a b, P a b -> Q a b) ->
  Forall2 P l1 l2 -> Forall2 Q l1 l2.
Proof. intros I H. induction H; constructor; auto. Qed.

Lemma bounded_max L K os : bounded L os -> bounded (Nat.max L K) os.
Proof. intros B o Ho. specialize (B o Ho). lia. Qed.

Section Query.
  Context {R : Type} (rt : result_type R).
  Variables (h : heap) (alg : algorithm) (term : str) (n : N).

  Lemma step_ok q b q' : advance_step rt h alg term n q = Ok (b, q') ->
    exists N K, (forall S B,
      (forall x, q_current q = Some x -> (length (i_state x) <= S /\ length (i_str x) <= B)%nat) ->
      (forall y, In y (q_pending q') -> (length (i_state y) <= S)%nat) ->
      (N <= 6 * S + B + 10 /\ K <= S)%nat) /\
    forall al order fuel w base root os rest it L, sound_allocators al -> (N <= fuel)%nat ->
      owns w base (os ++ rest) -> readable base root -> related root os it q -> bounded L os ->
      exists w' it' os', lazy_step rt fuel al order h alg term n w it = Ok (b, w', it') /\
        owns w' base (os' ++ rest) /\ related root os' it' q' /\ bounded (Nat.max L K) os'.
  Proof.
    intros H. unfold advance_step in H. destruct (q_edges q) as [|[label next] edges] eqn:Ee.
    - destruct (q_pending q) as [|x pending] eqn:Ep; [discriminate|].
      destruct (i_state x) as [|p st] eqn:Es; [discriminate|].
      destruct (read h (i_node x)) as [nd| |] eqn:Er; try discriminate. cbn [rbind] in H.
      injection H as <- <-. exists 0%nat, 0%nat. split; [intros; lia|].
      intros al order fuel w base root os rest it L HA _ Ho Hr Hrel B.
      destruct Hrel as [r1 r2 r3 r4 r5 r6 r7 r8 r9]. rewrite Ep in r1.
      inversion r1 as [|a ? pa ? Da Dp]; subst.
      destruct (denotes_own Da) as (o & K1 & K2 & K3 & K4).
      destruct (readable_in Ho Hr K1) as (G1 & G2 & G3 & G4 & G5).
      unfold lazy_step. rewrite r2, Ee, <- H. rewrite <- K2.
      rewrite (mread_ok G1 G2). cbn [rbind]. rewrite (mread_ok G3 G4). cbn [rbind].
      rewrite Es in K4. destruct (o_pos o) as [|[a1 x1] lp] eqn:Eo; [discriminate|].
      cbn in K4. injection K4 as -> K4.
      assert (Eh : o_head o = a1) by (apply segment_start in G5; exact G5).
      rewrite Eh in *. rewrite (segment_pos (l1:=[]) G5). cbn [rbind]. rewrite K3, Er. cbn [rbind].
      eexists _, _, os. split; [reflexivity|]. split; [exact Ho|]. split.
      + constructor; cbn; auto. rewrite K2. exact Da.
      + now apply bounded_max.
    - destruct (q_current q) as [x|] eqn:Ec; [|discriminate]. cbn [deref rbind] in H.
      destruct (characteristic_vector label term (q_k q) (q_i q)) as [cv| |] eqn:Ecv; try discriminate.
      cbn [rbind] in H.
      destruct (state_transition alg n (N.of_nat (length term)) (i_state x) cv) as [o| |] eqn:Et; try discriminate.
      cbn [rbind] in H.
      exists (5 * length (i_state x) + 3 + match o with Some st => length st + 1 | None => 0 end
              + length (i_str x) + 3)%nat,
             (match o with Some st => length st | None => 0 end)%nat.
      split.
      { intros S B HS HB. destruct (HS x eq_refl) as [S1 S2]. destruct o as [st|]; [|lia].
        assert (Iy : In (ChildI label next st x) (q_pending q')).
        { destruct (read h next) as [nd| |]; try discriminate. cbn [rbind] in H.
          assert (X : In (ChildI label next st x) (q_pending q ++ [ChildI label next st x]))
            by (apply in_or_app; right; now left).
          destruct (nfin nd); [destruct (_ <=? n)%N|]; injection H as <- <-; exact X. }
        apply HB in Iy. cbn [i_state] in Iy. lia. }
      intros al order fuel w base root os rest it L HA Hf Ho Hr Hrel B.
      destruct Hrel as [r1 r2 r3 r4 r5 r6 r7 r8 r9]. rewrite Ec in r5.
      destruct (denotes_own r5) as (ox & K1 & K2 & K3 & K4).
      destruct (readable_in Ho Hr K1) as (G1 & G2 & G3 & G4 & G5).
      unfold lazy_step. rewrite r2, Ee.
      replace (mread (w_int w) (l_current it)) with (Ok (o_cell ox))
        by (rewrite <- K2; symmetry; now apply mread_ok).
      cbn [rbind].
      rewrite r7, r8, Ecv. cbn [rbind].
      destruct HA as (HA1 & HA2 & HA3).
      rewrite <- K4 in Et. 
      pose proof (@state_transition_pointers_ok (a_pos al) (a_st al) order alg n (N.of_nat (length term))
        (w_pos w) (w_st w) (ic_state (o_cell ox)) (o_head ox) (o_pos ox) cv o fuel HA1 HA2 G3 G4 G5 Et) as T.
      assert (Hl : (5 * length (o_pos ox) + 2 < fuel)%nat).
      { rewrite <- (map_length snd), K4. lia. }
      specialize (T Hl). destruct Ho as (Ho1 & Ho2 & Ho3). destruct o as [st|].
      + destruct T as (m' & ss' & s & hd' & l' & E & C & M & S1 & S2 & S3 & S4 & S5).
        rewrite E. cbn [rbind w_pos w_st w_int].
        destruct (N.eqb_spec s null); [contradiction|]. cbn [negb].
        destruct (mget_mnew (w_int w) (ICell label next s (l_current it)) HA3) as (y & is' & Ey & Y1 & Y2 & Y3 & Y4 & Y5).
        unfold new_intersection. cbn [w_int w_pos w_st]. rewrite Ey.
        set (oy := Own y (ICell label next s (l_current it)) hd' l').
        assert (Ho' : owns (World m' ss' is') base (oy :: os ++ rest)).
        { split; [|split]; cbn [map w_pos w_st w_int o_head o_pos o_cell o_ptr oy ic_state].
          - refine (consists_trans Ho1 C).
          - eapply adds_one; eauto.
          - eapply adds_one; eauto. }
        assert (Ho'' : owns (World m' ss' is') base ((os ++ [oy]) ++ rest)).
        { apply (owns_perm (os := oy :: os ++ rest)); [|exact Ho'].
          rewrite <- app_assoc. cbn. apply Permutation_middle. }
        assert (I' : incl (root :: os) (root :: os ++ [oy])).
        { intros z [<-|Hz]; [now left|right]. apply in_or_app; auto. }
        assert (Dy : denotes (root :: os ++ [oy]) y (ChildI label next st x)).
        { cbn. exists oy. split; [right; apply in_or_app; right; now left|].
          cbn. repeat (split; [reflexivity || exact M|]). eapply denotes_incl; [exact I'|exact r5]. }
        assert (Rel : forall cpl (cand : R), related root (os ++ [oy])
          (LazyQuery (l_pending it ++ [y]) edges (l_intersections it ++ [y]) cpl (l_current it) cand (q_k q) (q_i q))
          (Query (q_pending q ++ [ChildI label next st x]) edges cpl (Some x) cand (q_k q) (q_i q))).
        { intros cpl cand. constructor; cbn; auto.
          - apply Forall2_app; [|constructor; [exact Dy|constructor]].
            apply (forall2_impl (P := denotes (root :: os))); [|exact r1]. intros; eapply denotes_incl; eauto.
          - rewrite map_app, r3. reflexivity.
          - eapply denotes_incl; eauto.
          - apply Forall_app. split; [exact r9|]. constructor; [|constructor]. cbn. rewrite <- K2. exact G1. }
        assert (Bn : bounded (Nat.max L (length st)) (os ++ [oy])).
        { intros z Hz. apply in_app_or in Hz. destruct Hz as [Hz|[<-|[]]].
          - specialize (B z Hz). lia.
          - cbn. rewrite <- M, map_length. lia. }
        destruct (read h next) as [nd| |] eqn:Er; try discriminate. cbn [rbind] in *.
        destruct (nfin nd).
        * cbn [w_st w_pos w_int]. rewrite (mread_ok S1 S3). cbn [rbind].
          assert (Sg : segment m' hd' l' null) by (apply (world_seg C)).
          rewrite (@distance_pointers_ok alg (N.of_nat (length term)) m' hd' l' fuel Sg)
            by (rewrite <- (map_length snd), M; lia).
          cbn [rbind]. rewrite M. destruct (distance alg st (N.of_nat (length term)) <=? n)%N.
          -- assert (Es : intersection_str fuel is' y = Ok (i_str (ChildI label next st x))).
             { refine (@str_ok (World m' ss' is') (root :: os ++ [oy]) _ _ y fuel Dy _).
               - intros z Hz. exact (readable_in Ho'' Hr Hz).
               - cbn [i_str]. rewrite app_length. cbn. lia. }
             rewrite Es. cbn [rbind]. injection H as <- <-.
             eexists _, _, (os ++ [oy]). split; [reflexivity|]. split; [exact Ho''|]. split; [apply Rel|exact Bn].
          -- injection H as <- <-. rewrite r4, r6.
             eexists _, _, (os ++ [oy]). split; [reflexivity|]. split; [exact Ho''|]. split; [apply Rel|exact Bn].
        * injection H as <- <-. rewrite r4, r6.
          eexists _, _, (os ++ [oy]). split; [reflexivity|]. split; [exact Ho''|]. split; [apply Rel|exact Bn].
      + destruct T as (m' & ss' & E & C & S & S'). rewrite E. cbn [rbind]. rewrite N.eqb_refl. cbn [negb].
        injection H as <- <-. eexists _, _, os. split; [reflexivity|]. split.
        { split; [|split]; cbn [w_pos w_st w_int].
          - eapply consists_ext; [|exact Ho1]. destruct C as (_ & _ & _ & F & C). split; [|exact C]. intros p. apply F. intros [].
          - eapply adds_ext; [|exact Ho2]. now split.
          - exact Ho3. }
        split; [constructor; cbn; auto|now apply bounded_max].
  Qed.

  Lemma work_ok root os (it : lazy_query R) q : related root os it q -> lazy_work it = has_work q.
  Proof.
    intros [r1 r2 _ _ _ _ _ _ _]. unfold lazy_work, has_work. rewrite r2.
    destruct (q_edges q); [|reflexivity]. inversion r1; reflexivity.
  Qed.

  Lemma loop_ok f : forall q q', advance_query_loop rt h alg term n f q = Ok q' ->
    exists N K, forall al order fuel rounds w base root os rest it L, sound_allocators al -> (N <= fuel)%nat -> (f <= rounds)%nat ->
      owns w base (os ++ rest) -> readable base root -> related root os it q -> bounded L os ->
      exists w' it' os', lazy_loop rt fuel al order h alg term n rounds w it = Ok (w', it') /\
        owns w' base (os' ++ rest) /\ related root os' it' q' /\ bounded (Nat.max L K) os'.
  Proof.
    induction f as [|f IH]; intros q q' H; [discriminate|]. cbn [advance_query_loop] in H.
    destruct (advance_step rt h alg term n q) as [[b q1]| |] eqn:E; try discriminate. cbn [rbind] in H.
    destruct (step_ok E) as (N1 & K1 & _ & S1).
    assert (D : (b = false /\ has_work q1 = true /\ advance_query_loop rt h alg term n f q1 = Ok q') \/
                ((b = true \/ has_work q1 = false) /\ q1 = q')).
    { destruct b; [right; injection H; auto|]. destruct (has_work q1); [left; auto|right; injection H; auto]. }
    clear H. destruct D as [(-> & W & H)|(D & <-)].
    - destruct (IH q1 q' H) as (N2 & K2 & S2). exists (Nat.max N1 N2), (Nat.max K1 K2).
      intros al order fuel rounds w base root os rest it L HA Hf Hr Ho Hi Hrel B.
      destruct rounds as [|rounds]; [lia|]. cbn [lazy_loop].
      destruct (S1 al order fuel w base root os rest it L) as (w1 & it1 & os1 & E1 & Ho1 & Hrel1 & B1); auto; [lia|].
      rewrite E1. cbn [rbind]. rewrite (work_ok Hrel1), W.
      destruct (S2 al order fuel rounds w1 base root os1 rest it1 (Nat.max L K1)) as (w2 & it2 & os2 & E2 & Ho2 & Hrel2 & B2);
        auto; try lia.
      exists w2, it2, os2. split; [exact E2|]. split; [exact Ho2|]. split; [exact Hrel2|].
      now rewrite Nat.max_assoc.
    - exists N1, K1. intros al order fuel rounds w base root os rest it L HA Hf Hr Ho Hi Hrel B.
      destruct rounds as [|rounds]; [lia|]. cbn [lazy_loop].
      destruct (S1 al order fuel w base root os rest it L) as (w1 & it1 & os1 & E1 & Ho1 & Hrel1 & B1); auto.
      rewrite E1. cbn [rbind]. rewrite (work_ok Hrel1).
      exists w1, it1, os1. split; [|auto]. destruct D as [->| ->]; [reflexivity|]. now destruct b.
  Qed.

  Lemma complete_related root os (it : lazy_query R) q : related root os it q ->
    related root os (lazy_complete it) (set_complete q).
  Proof. intros [r1 r2 r3 r4 r5 r6 r7 r8 r9]. constructor; cbn; auto. Qed.

  Lemma advance_ok f q q' : advance_query rt h alg term n f q = Ok q' ->
    exists N K, forall al order fuel w base root os rest it L, sound_allocators al -> (N <= fuel)%nat ->
      owns w base (os ++ rest) -> readable base root -> related root os it q -> bounded L os ->
      exists w' it' os', lazy_advance rt fuel al order h alg term n w it = Ok (w', it') /\
        owns w' base (os' ++ rest) /\ related root os' it' q' /\ bounded (Nat.max L K) os'.
  Proof.
    unfold advance_query. destruct (has_work q) eqn:W; intros H.
    - destruct (loop_ok H) as (N & K & S). exists (Nat.max N f), K.
      intros al order fuel w base root os rest it L HA Hf Ho Hi Hrel B. unfold lazy_advance.
      rewrite (work_ok Hrel), W. apply S with (root := root) (os := os); auto; try lia.
      now apply complete_related.
    - injection H as <-. exists 0%nat, 0%nat. intros al order fuel w base root os rest it L HA _ Ho Hi Hrel B.
      unfold lazy_advance. rewrite (work_ok Hrel), W. exists w, (lazy_complete it), os.
      split; [reflexivity|]. split; [exact Ho|]. split; [now apply complete_related|now apply bounded_max].
  Qed.

  Lemma begin_ok f x q' : new_query rt h alg term n f x = Ok q' ->
    exists N K, forall al order fuel w base root rest, sound_allocators al -> (N <= fuel)%nat ->
      owns w base rest -> readable base root -> denotes [root] (o_ptr root) x ->
      exists w' it' os', lazy_begin rt fuel al order h alg term n w (o_ptr root) = Ok (w', it') /\
        owns w' base (os' ++ rest) /\ related root os' it' q' /\ bounded K os'.
  Proof.
    unfold new_query. intros H. destruct (read h (i_node x)) as [nd| |] eqn:Er; try discriminate.
    cbn [rbind] in H.
    assert (G : forall w base root rest, owns w base rest -> readable base root -> denotes [root] (o_ptr root) x ->
      (exists c, mread (w_int w) (o_ptr root) = Ok c /\ ic_node c = i_node x) /\
      forall cand : R, related root [] (LazyQuery [o_ptr root] [] [] false null cand 0%N 0%N)
                     (Query [x] [] false None cand 0%N 0%N)).
    { intros w base root rest Ho Hi D. split.
      - destruct (denotes_own D) as (o & [<-|[]] & K2 & K3 & K4).
        destruct (readable_owns Ho Hi) as (G1 & G2 & _). exists (o_cell root). split; [now apply mread_ok|exact K3].
      - intros cand. constructor; cbn; auto. }
    destruct (nfin nd && (N.of_nat (length term) <=? n)%N) eqn:Eb.
    - injection H as <-. exists 0%nat, 0%nat. intros al order fuel w base root rest HA _ Ho Hi D.
      destruct (G w base root rest Ho Hi D) as ((c & C1 & C2) & Rel). unfold lazy_begin.
      rewrite C1. cbn [rbind]. rewrite C2, Er. cbn [rbind]. rewrite Eb.
      eexists _, _, []. split; [reflexivity|]. split; [exact Ho|]. split; [apply Rel|]. intros ? [].
    - destruct (advance_ok H) as (N & K & S). exists N, K. intros al order fuel w base root rest HA Hf Ho Hi D.
      destruct (G w base root rest Ho Hi D) as ((c & C1 & C2) & Rel). unfold lazy_begin.
      rewrite C1. cbn [rbind]. rewrite C2, Er. cbn [rbind]. rewrite Eb.
      apply (S al order fuel w base root [] rest _ 0%nat); auto. intros ? [].
  Qed.
End Query.

(** ** The transducer *)
Lemma make_transducer_ok al base n fuel : sound_allocators al -> (2 < fuel)%nat ->
  exists w root, make_transducer fuel al base n = Ok (w, o_ptr root) /\ owns w base [root] /\
    denotes [root] (o_ptr root) (RootI n [Pos 0 0 false]) /\ (length (o_pos root) <= 1)%nat.
Proof.
  intros (HA1 & HA2 & HA3) Hf. unfold make_transducer.
  assert (H0 : consists_of (w_pos base) (w_pos base) []).
  { split; [intros ? ? ? []|]. split; [constructor|]. split; [intros ? []|split; reflexivity]. }
  destruct (world_new (Pos 0 0 false) HA1 H0) as (a & m1 & E1 & _ & _ & H1).
  unfold new_position in *. rewrite E1.
  apply (world_add_empty null) in H1.
  destruct (@state_of_loop_ok (w_pos base) [(a, Pos 0 0 false)] m1 null [] [] fuel H1) as (m2 & E2 & H2).
  { cbn. lia. }
  unfold state_of. cbn [map fst leave] in E2.
  match type of E2 with ?lhs = _ => match goal with |- context [rbind ?r _] =>
    replace r with lhs by reflexivity end end.
  rewrite E2. cbn [rbind app enter] in *.
  destruct (mget_mnew (w_st base) a HA2) as (s & ss & Es & S1 & S2 & S3 & S4 & S5). cbn [fst] in *. rewrite Es.
  unfold new_intersection. cbn [w_int w_pos w_st].
  destruct (mget_mnew (w_int base) (ICell NUL n s null) HA3) as (i & is' & Ei & I1 & I2 & I3 & I4 & I5). rewrite Ei.
  exists (World m2 ss is'), (Own i (ICell NUL n s null) a [(a, Pos 0 0 false)]).
  split; [reflexivity|]. split; [|split].
  - split; [exact H2|]. split; cbn [map o_ptr o_cell o_head ic_state w_st w_int].
    + eapply adds_one; eauto. apply adds_nil, alike_refl.
    + eapply adds_one; eauto. apply adds_nil, alike_refl.
  - cbn. eexists. split; [now left|]. cbn. auto.
  - cbn. lia.
Qed.
