(** * ThrowProofs: queries when memory runs out. *)
From Coq Require Import Permutation Relations.
From Verif Require Import Base Spec ModelTransducer ModelDawg ModelQuery ModelState ModelMemory SpecState SpecMemory.
From Verif Require Import AlignProofs TransProofs StateProofs BoundProofs TreeProofs HeapProofs IterProofs.
From Verif Require QueryProofs.
From Verif Require Import PointerProofs MemoryProofs RunProofs ModelShared SpecShared AloneProofs PropsState SharedProofs.
From Verif Require Import ModelThrow SpecThrow.
Set Implicit Arguments. Unset Strict Implicit.
Local Open Scope nat_scope.

(** ** Subsequences *)
Lemma sub_refl {A} (l : list A) : subsequence l l.
Proof. induction l; constructor; auto. Qed.
Lemma sub_nil {A} (l : list A) : subsequence [] l.
Proof. induction l; constructor; auto. Qed.
Lemma sub_app {A} (a a' b b' : list A) : subsequence a a' -> subsequence b b' -> subsequence (a ++ b) (a' ++ b').
Proof. induction 1; cbn; intros; auto; constructor; auto. Qed.
Lemma sub_trans {A} (b c : list A) : subsequence b c -> forall a, subsequence a b -> subsequence a c.
Proof.
  induction 1 as [|x l l' H IH|x l l' H IH]; intros a Ha; auto.
  - inversion Ha; subst; constructor; auto.
  - constructor. auto.
Qed.
Lemma sub_map {A B} (f : A -> B) l l' : subsequence l l' -> subsequence (map f l) (map f l').
Proof. induction 1; cbn; constructor; auto. Qed.
Lemma sub_flat_map {A B} (f : A -> list B) l l' : subsequence l l' -> subsequence (flat_map f l) (flat_map f l').
Proof.
  induction 1; cbn; auto; [constructor|now apply sub_app; [apply sub_refl|]|].
  change (flat_map f l) with ([] ++ flat_map f l). now apply sub_app; [apply sub_nil|].
Qed.
Lemma sub_filter {A} (f : A -> bool) l l' : subsequence l l' -> subsequence (filter f l) (filter f l').
Proof. induction 1; cbn; [constructor|destruct (f x); [constructor|]; auto..]. Qed.
Lemma sub_firstn {A} k (l : list A) : subsequence (firstn k l) l.
Proof.
  revert k. induction l as [|x l IH]; intros [|k]; cbn; try apply sub_nil. constructor. apply IH.
Qed.

(** Leaving out branches leaves out words. *)
Lemma sub_enum : forall q' q, subsequence q q' -> subsequence (enum q) (enum q').
Proof.
  apply (queue_ind (fun q' => forall q, subsequence q q' -> subsequence (enum q) (enum q'))).
  - intros q H. inversion H. apply sub_refl.
  - intros s f es q' IH q H. inversion H; subst; rewrite !enum_cons.
    + apply sub_app; [apply sub_refl|]. apply IH. apply sub_app; [assumption|apply sub_refl].
    + change (enum q) with ([] ++ enum q). apply sub_app; [apply sub_nil|]. apply IH.
      rewrite <- (app_nil_r q). apply sub_app; [assumption|apply sub_nil].
Qed.

Lemma sub_remaining v es es' Q Q' : subsequence es es' -> subsequence Q Q' ->
  subsequence (QueryProofs.remaining v es Q) (QueryProofs.remaining v es' Q').
Proof.
  intros H1 H2. apply sub_enum. apply sub_app; [|now apply sub_flat_map]. unfold children. now apply sub_map.
Qed.

(** ** Programs that are interrupted *)

(** Everything is kept, and nothing else becomes constant. *)
Definition keeps (w w' : world) : Prop := forall c,
  (forall a x, mget (part w c) a = Some x -> mget (part w' c) a = Some x) /\
  (forall a, mconst (part w' c) a = mconst (part w c) a).

Lemma keeps_refl w : keeps w w.
Proof. intros c. auto. Qed.
Lemma keeps_trans w1 w2 w3 : keeps w1 w2 -> keeps w2 w3 -> keeps w1 w3.
Proof.
  intros H1 H2 c. destruct (H1 c) as [A1 B1], (H2 c) as [A2 B2]. split; [auto|]. intros a. now rewrite B2.
Qed.
Lemma keeps_preserved w w' : keeps w w' -> preserved w w'.
Proof.
  intros H. split; [|split]; [apply (H OfPosition)|apply (H OfState)|apply (H OfIntersection)].
Qed.

Section Attempt.
  Variables (al : allocators) (order : positions -> ptr -> bool) (h : heap).
  Hypothesis HA : sound_allocators al.

  Lemma attempt_ok {A} (p : program A) : forall w w' x, alone al order h p w = Ok (w', x) -> forall b,
    (exists b', attempt al order h p b w = Ok (b', w', Some x)) \/
    (exists b' w'', attempt al order h p b w = Ok (b', w'', None)).
  Proof.
    induction p as [y| | |c a k IH|c a y k IH|c y k IH|c a k IH|a k IH|a y d k IH]; intros w w' x H b;
      cbn [alone attempt] in *; try discriminate.
    - injection H as <- <-. left. eauto.
    - destruct (mread (part w c) a); cbn [rbind] in *; try discriminate. eapply IH; eauto.
    - destruct (mwrite (part w c) a y); cbn [rbind] in *; try discriminate. eapply IH; eauto.
    - destruct (spend b) as [b1|]; [eapply IH; eauto|right; eauto].
    - destruct (mfree (part w c) a); cbn [rbind] in *; try discriminate. eapply IH; eauto.
    - destruct (read h a); cbn [rbind] in *; try discriminate. eapply IH; eauto.
    - destruct (mwrite (w_pos w) a y); cbn [rbind] in *; try discriminate. eapply IH; eauto.
  Qed.

  Lemma attempt_unlimited {A} (p : program A) : forall w,
    attempt al order h p None w = do (w', x) <- alone al order h p w; Ok (None, w', Some x).
  Proof.
    induction p as [y| | |c a k IH|c a y k IH|c y k IH|c a k IH|a k IH|a y d k IH]; intros w;
      cbn [alone attempt spend]; try reflexivity; auto.
    - destruct (mread (part w c) a); cbn [rbind]; auto.
    - destruct (mwrite (part w c) a y); cbn [rbind]; auto.
    - destruct (mfree (part w c) a); cbn [rbind]; auto.
    - destruct (read h a); cbn [rbind]; auto.
    - destruct (mwrite (w_pos w) a y); cbn [rbind]; auto.
  Qed.

  Lemma turns_first {A} (s s' s'' : world * list (program A)) : turn h s s' -> turns h s' s'' -> turns h s s''.
  Proof.
    intros H1 H2. induction H2 as [s'|s' s1 s2 H2 IH H3].
    - eapply more_turns; [apply no_turn|exact H1].
    - eapply more_turns; [apply IH, H1|exact H3].
  Qed.

  Lemma alloc_sound c (m : mem (object c)) : alloc al c m <> null /\ mget m (alloc al c m) = None.
  Proof. destruct HA as (H1 & H2 & H3). destruct c; cbn; auto. Qed.

  Lemma attempt_turns {A} (p : program A) : forall b w b' w' r, attempt al order h p b w = Ok (b', w', r) ->
    exists p', turns h (w, [p]) (w', [p']).
  Proof.
    assert (T : forall (p : program A) w p1 w1 p' w', access h p w (p1, w1) -> turns h (w1, [p1]) (w', [p']) ->
      turns h (w, [p]) (w', [p'])).
    { intros q w p1 w1 p' w' H1 H2. eapply turns_first; [|exact H2]. exact (@one_turn A h w [] q [] p1 w1 H1). }
    induction p as [y| | |c a k IH|c a y k IH|c y k IH|c a k IH|a k IH|a y d k IH]; intros b w b' w' r H;
      cbn [attempt] in H; try discriminate.
    - injection H as <- <- <-. eexists. apply no_turn.
    - pose proof (access_read h c a k w) as X. destruct (mread (part w c) a) as [z| |]; try discriminate.
      cbn [rbind after] in *. destruct (IH _ _ _ _ _ _ H) as [p' Hp]. eauto.
    - pose proof (access_write h c a y k w) as X. destruct (mwrite (part w c) a y) as [z| |]; try discriminate.
      cbn [rbind after] in *. destruct (IH _ _ _ _ _ H) as [p' Hp]. eauto.
    - destruct (spend b) as [b1|].
      + destruct (alloc_sound (part w c)) as [N F]. pose proof (@access_new A h c y k w _ N F) as X.
        destruct (IH _ _ _ _ _ _ H) as [p' Hp]. eauto.
      + injection H as <- <- <-. eexists. apply no_turn.
    - pose proof (access_free h c a k w) as X. destruct (mfree (part w c) a) as [z| |]; try discriminate.
      cbn [rbind after] in *. destruct (IH _ _ _ _ _ H) as [p' Hp]. eauto.
    - pose proof (access_node h a k w) as X. destruct (read h a) as [z| |]; try discriminate.
      cbn [rbind after] in *. destruct (IH _ _ _ _ _ _ H) as [p' Hp]. eauto.
    - pose proof (fun o => access_choose h a y d k w o) as X. destruct (mwrite (w_pos w) a y) as [z| |]; try discriminate.
      cbn [rbind after] in *. destruct (IH _ _ _ _ _ _ H) as [p' Hp]. exists p'. eapply T; [apply X|exact Hp].
  Qed.

  (** A program that never goes wrong when everything there is constant keeps
      everything, wherever it is interrupted. *)
  Lemma attempt_keeps {A} (p : program A) b w b' w' r :
    (forall al' order', sound_allocators al' -> exists s, alone al' order' h p (freeze_world w) = Ok s) ->
    attempt al order h p b w = Ok (b', w', r) -> keeps w w'.
  Proof.
    intros Sf H. destruct (attempt_turns H) as [p' T].
    assert (S : safe h w p).
    { intros q v L. destruct (realised L) as (al' & o' & HA' & E). cbn [fst snd] in E.
      destruct (Sf al' o' HA') as [s Es]. rewrite Es in E.
      split; intros ->; discriminate. }
    assert (Sp : forall q, In q [p] -> safe h w q) by (intros q [<-|[]]; exact S).
    destruct (turns_together Sp T) as [l To].
    destruct To as (_ & _ & _ & F). intros c. cbn [fst] in F. destruct (F c) as [F1 _ _ _ F5 _]. auto.
  Qed.
End Attempt.

(** ** What is no longer reachable joins what was there before *)
Definition strip {A} (m : mem A) (ps : list ptr) : mem A := map (fun a => (a, Gone)) ps ++ m.

Lemma mlook_strip {A} (m : mem A) ps p : In p ps -> mlook (strip m ps) p = Gone.
Proof.
  induction ps as [|a ps IH]; intros [].
  - subst a. cbn. now rewrite N.eqb_refl.
  - cbn. destruct (N.eqb_spec p a); [reflexivity|]. now apply IH.
Qed.
Lemma mlook_strip_other {A} (m : mem A) ps p : ~ In p ps -> mlook (strip m ps) p = mlook m p.
Proof.
  induction ps as [|a ps IH]; intros H; [reflexivity|]. cbn. destruct (N.eqb_spec p a) as [->|].
  - destruct H. now left.
  - apply IH. intros X. apply H. now right.
Qed.

Lemma strip_keeps {A} (base m : mem A) ps :
  (forall a, In a ps -> mget base a = None) ->
  (forall a x, mget base a = Some x -> mget m a = Some x) -> (forall a, mconst m a = mconst base a) ->
  (forall a, In a ps -> mget (strip m ps) a = None) /\
  (forall a, ~ In a ps -> mget m a = mget (strip m ps) a) /\
  (forall a, mconst m a = mconst (strip m ps) a) /\
  (forall a x, mget base a = Some x -> mget (strip m ps) a = Some x) /\
  (forall a, mconst (strip m ps) a = mconst base a).
Proof.
  intros B F C.
  assert (Cs : forall a, mconst m a = mconst (strip m ps) a).
  { intros a. unfold mconst at 2. destruct (in_dec N.eq_dec a ps) as [I|I].
    - rewrite mlook_strip by assumption. rewrite C. now apply mconst_none, B.
    - now rewrite mlook_strip_other. }
  split; [intros a I; unfold mget; now rewrite mlook_strip|].
  split; [intros a I; unfold mget; now rewrite mlook_strip_other|]. split; [exact Cs|]. split.
  - intros a x H. destruct (in_dec N.eq_dec a ps) as [I|I]; [rewrite B in H by assumption; discriminate|].
    unfold mget. rewrite mlook_strip_other by assumption. now apply F.
  - intros a. now rewrite <- Cs, C.
Qed.

Lemma adds_rebase {A} (m base m' : mem A) l0 l : adds m base (l0 ++ l) ->
  (forall a x, mget m a = Some x -> mget m' a = Some x) -> (forall a, mconst m' a = mconst m a) ->
  exists base', adds m' base' l /\ (forall a x, mget base a = Some x -> mget base' a = Some x) /\
    (forall a, mconst base' a = mconst base a).
Proof.
  intros Ad K1 K2. pose proof Ad as (N & I & O & C). exists (strip m' (map fst l)).
  assert (I' : forall p x, In (p, x) l -> p <> null /\ mget base p = None /\ mget m p = Some x).
  { intros p x H. apply I. apply in_or_app. now right. }
  assert (B : forall a, In a (map fst l) -> mget base a = None).
  { intros a Ha. apply in_map_iff in Ha. destruct Ha as ([a' x] & <- & Ha). now apply I' in Ha. }
  destruct (strip_keeps B (m := m')) as (S1 & S2 & S3 & S4 & S5).
  { intros a x H. apply K1. eapply adds_preserved; eauto. }
  { intros a. now rewrite K2, C. }
  split; [|split; assumption]. split; [|split; [|split; assumption]].
  - rewrite map_app in N. clear - N. induction (map fst l0); [exact N|]. inversion N; auto.
  - intros p x Hp. destruct (I' p x Hp) as (I1 & I2 & I3). split; [exact I1|]. split; [|now apply K1].
    apply S1. apply in_map_iff. now exists (p, x).
Qed.

Lemma segment_some m p l q a : segment m p l q -> In a (map fst l) -> exists c, mget m a = Some c.
Proof.
  revert p. induction l as [|[b x] l IH]; intros p S Ha; [destruct Ha|].
  destruct S as (_ & _ & n & G & S). destruct Ha as [<-|Ha]; [eauto|]. eapply IH; eauto.
Qed.

Lemma consists_rebase m base m' cs0 cs : consists_of m base (cs0 ++ cs) ->
  (forall a x, mget m a = Some x -> mget m' a = Some x) -> (forall a, mconst m' a = mconst m a) ->
  exists base', consists_of m' base' cs /\ (forall a x, mget base a = Some x -> mget base' a = Some x) /\
    (forall a, mconst base' a = mconst base a).
Proof.
  intros Co K1 K2. pose proof Co as (S & N & B & F & C). exists (strip m' (addresses cs)).
  assert (EA : addresses (cs0 ++ cs) = addresses cs0 ++ addresses cs) by (unfold addresses; apply flat_map_app).
  rewrite EA in *.
  destruct (strip_keeps (base := base) (m := m') (ps := addresses cs)) as (S1 & S2 & S3 & S4 & S5).
  { intros a Ha. apply B. apply in_or_app. now right. }
  { intros a x H. apply K1. eapply consists_preserved; eauto. }
  { intros a. now rewrite K2, C. }
  split; [|split; assumption].
  split; [|split; [|split; [exact S1|split; assumption]]].
  - intros p l q Hin. assert (Hin' : In (p, l, q) (cs0 ++ cs)) by (apply in_or_app; now right).
    specialize (S p l q Hin'). apply (@segment_frame m); [|exact S].
    intros a Ha. destruct (segment_some S Ha) as [c G]. rewrite G. now apply K1.
  - clear - N. induction (addresses cs0); [exact N|]. inversion N; auto.
Qed.

Lemma owns_forget w base w' os0 os : owns w base (os0 ++ os) -> keeps w w' ->
  exists base', owns w' base' os /\ keeps base base'.
Proof.
  intros (H1 & H2 & H3) K. rewrite map_app in H1, H2, H3.
  destruct (consists_rebase H1 (proj1 (K OfPosition)) (proj2 (K OfPosition))) as (b1 & C1 & X1 & Y1).
  destruct (adds_rebase H2 (proj1 (K OfState)) (proj2 (K OfState))) as (b2 & C2 & X2 & Y2).
  destruct (adds_rebase H3 (proj1 (K OfIntersection)) (proj2 (K OfIntersection))) as (b3 & C3 & X3 & Y3).
  exists (World b1 b2 b3). split; [split; [exact C1|split; assumption]|]. intros []; cbn; auto.
Qed.

Lemma owns_rebase w base w' os : owns w base os -> keeps w w' ->
  exists base', owns w' base' os /\ keeps base base'.
Proof. intros H K. exact (@owns_forget w base w' [] os H K). Qed.

Lemma keeps_readable w w' o : keeps w w' -> readable w o -> readable w' o.
Proof.
  intros K (G1 & G2 & G3 & G4 & G5). split; [exact G1|]. split; [now apply (K OfIntersection)|].
  split; [exact G3|]. split; [now apply (K OfState)|].
  apply (@segment_frame (w_pos w)); [|exact G5]. intros a Ha. destruct (segment_some G5 Ha) as [c G].
  rewrite G. now apply (K OfPosition).
Qed.

(** ** One step *)

(** Where an exception leaves a query that would have come from [q] to [q']. *)
Record cut {R} (q q' q'' : query R) : Prop := Cut {
  cut_pending : subsequence (q_pending q'') (q_pending q');
  cut_edges : subsequence (q_edges q'') (q_edges q');
  cut_current : q_current q'' = q_current q';
  cut_k : q_k q'' = q_k q';
  cut_i : q_i q'' = q_i q';
  cut_complete : q_complete q'' = q_complete q;
  cut_candidate : q_candidate q'' = q_candidate q }.

(** States of at most [S] positions after at most [B] characters. *)
Definition small {R} (S B : nat) (q : query R) : Prop := forall i,
  In i (q_pending q) \/ q_current q = Some i -> length (i_state i) <= S /\ length (i_str i) <= B.

Lemma transition_frozen h w ox alg n len cv o fuel : readable w ox ->
  state_transition alg n len (map snd (o_pos ox)) cv = Ok o -> 5 * length (o_pos ox) + 2 < fuel ->
  forall al' order', sound_allocators al' ->
  exists s, alone al' order' h (p_state_transition fuel alg n len (ic_state (o_cell ox)) cv) (freeze_world w) = Ok s.
Proof.
  intros Hr E Hf al' order' (HA1 & HA2 & HA3). apply freeze_readable in Hr.
  destruct Hr as (G1 & G2 & G3 & G4 & G5). unfold freeze_world in *. cbn [w_pos w_st w_int] in *.
  rewrite state_transition_alone.
  pose proof (@state_transition_pointers_ok (a_pos al') (a_st al') order' alg n len
    _ _ (ic_state (o_cell ox)) (o_head ox) (o_pos ox) cv o fuel HA1 HA2 G3 G4 G5 E Hf) as T.
  destruct o as [st|].
  - destruct T as (m' & ss' & s & hd & l & -> & _). cbn [rbind]. eauto.
  - destruct T as (m' & ss' & -> & _). cbn [rbind]. eauto.
Qed.

Section Step.
  Context {R : Type} (rt : result_type R).
  Variables (h : heap) (alg : algorithm) (term : str) (n : N).

  Lemma spend_none b : spend b = None -> b <> None.
  Proof. destruct b; [discriminate|]. cbn. discriminate. Qed.
  Lemma spend_some b b1 : spend b = Some b1 -> b = None -> b1 = None.
  Proof. intros E ->. cbn in E. now injection E as <-. Qed.

  Lemma attempt_none al order {A} (p : program A) b w b' w' r :
    attempt al order h p b w = Ok (b', w', r) -> b = None -> b' = None /\ r <> None.
  Proof.
    intros E ->. rewrite attempt_unlimited in E. destruct (alone al order h p w) as [[w1 x]| |]; try discriminate.
    cbn [rbind] in E. injection E as <- <- <-. split; [reflexivity|discriminate].
  Qed.

  Lemma try_step_ok q c q' S B : advance_step rt h alg term n q = Ok (c, q') ->
    small S B q -> small S B q' ->
    forall al order fuel b w base root os rest it, sound_allocators al -> 6 * S + B + 10 <= fuel ->
      owns w base (os ++ rest) -> readable base root -> related root os it q -> bounded S os ->
      exists b' w' it' r base' os', try_step rt fuel al order h alg term n b w it = Ok (b', w', it', r) /\
        (b = None -> b' = None /\ r <> None) /\
        keeps base base' /\ owns w' base' (os' ++ rest) /\ bounded S os' /\
        match r with
        | Some c' => c' = c /\ related root os' it' q' /\ base' = base
        | None => exists q'', related root os' it' q'' /\ cut q q' q''
        end.
  Proof.
    intros H Sq Sq' al order fuel b w base root os rest it HA Hf Ho Hr Hrel Bd.
    unfold advance_step in H. destruct (q_edges q) as [|[label next] edges] eqn:Ee.
    - destruct (q_pending q) as [|x pending] eqn:Ep; [discriminate|].
      destruct (i_state x) as [|p st] eqn:Es; [discriminate|].
      destruct (ModelDawg.read h (i_node x)) as [nd| |] eqn:Er; try discriminate. cbn [rbind] in H.
      injection H as <- <-.
      destruct Hrel as [r1 r2 r3 r4 r5 r6 r7 r8 r9]. rewrite Ep in r1.
      inversion r1 as [|a ? pa ? Da Dp]; subst.
      destruct (denotes_own Da) as (o & K1 & K2 & K3 & K4).
      destruct (readable_in Ho Hr K1) as (G1 & G2 & G3 & G4 & G5).
      unfold try_step. rewrite r2, Ee, <- H. rewrite <- K2.
      rewrite (mread_ok G1 G2). cbn [rbind]. rewrite (mread_ok G3 G4). cbn [rbind].
      rewrite Es in K4. destruct (o_pos o) as [|[a1 x1] lp] eqn:Eo; [discriminate|].
      cbn in K4. injection K4 as -> K4.
      assert (Eh : o_head o = a1) by (apply segment_start in G5; exact G5).
      rewrite Eh in *. rewrite (segment_pos (l1:=[]) G5). cbn [rbind]. rewrite K3, Er. cbn [rbind].
      assert (Rel : forall es, related root os
        (LazyQuery pa es (l_intersections it) (l_complete it) (o_ptr o) (l_candidate it)
           (query_k (query_a n) (N.of_nat (length term)) (ti p)) (ti p))
        (Query pending es (q_complete q) (Some x) (q_candidate q)
           (query_k (query_a n) (N.of_nat (length term)) (ti p)) (ti p))).
      { intros es. constructor; cbn; auto. rewrite K2. exact Da. }
      destruct b as [k|].
      + destruct (k <? length (nedges nd)).
        * eexists _, w, _, None, base, os. split; [reflexivity|]. split; [discriminate|].
          split; [apply keeps_refl|]. split; [exact Ho|]. split; [exact Bd|].
          eexists. split; [apply Rel|]. constructor; cbn; auto using sub_refl, sub_firstn.
        * eexists _, w, _, (Some false), base, os. split; [reflexivity|]. split; [discriminate|].
          split; [apply keeps_refl|]. split; [exact Ho|]. split; [exact Bd|].
          split; [reflexivity|]. split; [apply Rel|reflexivity].
      + eexists _, w, _, (Some false), base, os. split; [reflexivity|]. split; [split; [reflexivity|discriminate]|].
        split; [apply keeps_refl|]. split; [exact Ho|]. split; [exact Bd|].
        split; [reflexivity|]. split; [apply Rel|reflexivity].
    - destruct (q_current q) as [x|] eqn:Ec; [|discriminate]. cbn [deref rbind] in H.
      destruct (characteristic_vector label term (q_k q) (q_i q)) as [cv| |] eqn:Ecv; try discriminate.
      cbn [rbind] in H.
      destruct (state_transition alg n (N.of_nat (length term)) (i_state x) cv) as [o| |] eqn:Et; try discriminate.
      cbn [rbind] in H.
      pose proof Hrel as [r1 r2 r3 r4 r5 r6 r7 r8 r9]. rewrite Ec in r5.
      destruct (denotes_own r5) as (ox & K1 & K2 & K3 & K4).
      pose proof (readable_in Ho Hr K1) as Rx. destruct Rx as (G1 & G2 & G3 & G4 & G5).
      destruct (Sq x (or_intror Ec)) as [Sx Bx].
      unfold try_step. rewrite r2, Ee.
      replace (mread (w_int w) (l_current it)) with (Ok (o_cell ox))
        by (rewrite <- K2; symmetry; now apply mread_ok).
      cbn [rbind]. rewrite r7, r8, Ecv. cbn [rbind].
      assert (Eq' : q_edges q' = edges /\ q_current q' = Some x /\ q_k q' = q_k q /\ q_i q' = q_i q /\
        subsequence (q_pending q) (q_pending q') /\
        (forall st, o = Some st -> q_pending q' = q_pending q ++ [ChildI label next st x])).
      { assert (X : forall y, subsequence (q_pending q) (q_pending q ++ [y])).
        { intros y. rewrite <- (app_nil_r (q_pending q)) at 1. apply sub_app; [apply sub_refl|apply sub_nil]. }
        destruct o as [st|].
        - destruct (ModelDawg.read h next) as [nd| |]; try discriminate. cbn [rbind] in H.
          destruct (nfin nd); [destruct (_ <=? n)%N|]; injection H as <- <-; cbn; rewrite ?Ec;
            repeat (split; [reflexivity || apply X|]); intros st' E; now injection E as <-.
        - injection H as <- <-. cbn. rewrite ?Ec. repeat (split; [reflexivity || apply sub_refl|]). discriminate. }
      destruct Eq' as (e1 & e2 & e3 & e4 & e5 & e6).
      set (popped := LazyQuery (l_pending it) edges (l_intersections it) (l_complete it) (l_current it)
                       (l_candidate it) (q_k q) (q_i q)).
      (* the edge is gone, nothing else has changed *)
      assert (Lost : forall w1, keeps w w1 -> forall b' : budget, (b = None -> False) ->
        exists (b'' : budget) w' it' r base' os', Ok (b', w1, popped, @None bool) = Ok (b'', w', it', r) /\
        (b = None -> b'' = None /\ r <> None) /\
        keeps base base' /\ owns w' base' (os' ++ rest) /\ bounded S os' /\
        match r with
        | Some c' => c' = c /\ related root os' it' q' /\ base' = base
        | None => exists q'', related root os' it' q'' /\ cut q q' q''
        end).
      { intros w1 K b' Hb. destruct (owns_rebase Ho K) as (base' & Ho' & Kb).
        eexists _, _, _, _, base', os. split; [reflexivity|]. split; [intros X; now apply Hb in X|].
        split; [exact Kb|]. split; [exact Ho'|]. split; [exact Bd|].
        exists (Query (q_pending q) edges (q_complete q) (Some x) (q_candidate q) (q_k q) (q_i q)). split.
        - constructor; cbn; auto.
        - constructor; cbn; auto. rewrite e1. apply sub_refl. }
      destruct (spend b) as [b1|] eqn:E1.
      2: { apply Lost; [apply keeps_refl|]. intros X. now apply spend_none in E1. }
      assert (Hb1 : b = None -> b1 = None) by (now apply spend_some).
      rewrite <- K4 in Et.
      assert (Hl : 5 * length (o_pos ox) + 2 < fuel).
      { rewrite <- (map_length snd), K4. lia. }
      set (len := N.of_nat (length term)) in *.
      set (pt := p_state_transition fuel alg n len (ic_state (o_cell ox)) cv).
      pose proof (@transition_frozen h w ox alg n len cv o fuel (conj G1 (conj G2 (conj G3 (conj G4 G5)))) Et Hl) as Fz.
      pose proof HA as (HA1 & HA2 & HA3).
      pose proof (@state_transition_pointers_ok (a_pos al) (a_st al) order alg n len
        (w_pos w) (w_st w) (ic_state (o_cell ox)) (o_head ox) (o_pos ox) cv o fuel HA1 HA2 G3 G4 G5 Et Hl) as T.
      assert (Al : exists w1 s, alone al order h pt w = Ok (w1, s) /\
        state_transition_pointers fuel (a_pos al) (a_st al) order alg n len (w_pos w) (w_st w) (ic_state (o_cell ox)) cv
          = Ok (w_pos w1, w_st w1, s) /\ w_int w1 = w_int w).
      { destruct w as [m ss is]. unfold pt. rewrite state_transition_alone. cbn [w_pos w_st w_int] in *.
        destruct o as [st|].
        - destruct T as (m' & ss' & s & hd' & l' & E & _). rewrite E. cbn [rbind].
          exists (World m' ss' is), s. auto.
        - destruct T as (m' & ss' & E & _). rewrite E. cbn [rbind]. exists (World m' ss' is), null. auto. }
      destruct Al as (w1 & s & Eal & Esp & Eint).
      destruct (attempt_ok Eal b1) as [(b2 & Eat)|(b2 & w'' & Eat)].
      2: { rewrite Eat. cbn [rbind]. apply Lost; [exact (attempt_keeps HA Fz Eat)|].
           intros X. destruct (attempt_none Eat (Hb1 X)) as [_ Y]. now apply Y. }
      rewrite Eat. cbn [rbind].
      assert (Hb2 : b = None -> b2 = None) by (intros X; now destruct (attempt_none Eat (Hb1 X))).
      pose proof (attempt_keeps HA Fz Eat) as Kw.
      rewrite Esp in T. pose proof Ho as (Ho1 & Ho2 & Ho3). destruct o as [st|].
      + destruct T as (m' & ss' & s' & hd' & l' & E & C & M & S1 & S2 & S3 & S4 & S5).
        injection E as <- <- <-.
        destruct (N.eqb_spec s null); [contradiction|]. cbn [negb].
        destruct (spend b2) as [b3|] eqn:E3.
        2: { apply Lost; [exact Kw|]. intros X. exact (spend_none E3 (Hb2 X)). }
        assert (Hb3 : b = None -> b3 = None) by (intros X; apply (spend_some E3); auto).
        destruct (mget_mnew (w_int w) (ICell label next s (l_current it)) HA3) as (y & is' & Ey & Y1 & Y2 & Y3 & Y4 & Y5).
        unfold new_intersection. rewrite Eint, Ey.
        set (w2 := World (w_pos w1) (w_st w1) is').
        assert (Kw2 : keeps w w2).
        { intros cl. destruct (Kw cl) as [A1 A2]. destruct cl; cbn [part w2 w_pos w_st w_int] in *; auto.
          split; [|exact Y5]. intros a z Ga. rewrite Y4; [exact Ga|]. intros E. subst a. pose proof (eq_trans (eq_sym Ga) Y2). discriminate. }
        destruct (spend b3) as [b4|] eqn:E4.
        2: { apply Lost; [exact Kw2|]. intros X. exact (spend_none E4 (Hb3 X)). }
        assert (Hb4 : b = None -> b4 = None) by (intros X; apply (spend_some E4); auto).
        set (oy := Own y (ICell label next s (l_current it)) hd' l').
        assert (Ho' : owns w2 base (oy :: os ++ rest)).
        { split; [|split]; cbn [map w_pos w_st w_int o_head o_pos o_cell o_ptr oy ic_state w2].
          - refine (consists_trans Ho1 C).
          - eapply adds_one; eauto.
          - eapply adds_one; eauto. }
        assert (Ho'' : owns w2 base ((os ++ [oy]) ++ rest)).
        { apply (owns_perm (os := oy :: os ++ rest)); [|exact Ho'].
          rewrite <- app_assoc. cbn. apply Permutation_middle. }
        assert (I' : incl (root :: os) (root :: os ++ [oy])).
        { intros z [<-|Hz]; [now left|right]. apply in_or_app; auto. }
        assert (Dy : denotes (root :: os ++ [oy]) y (ChildI label next st x)).
        { cbn. exists oy. split; [right; apply in_or_app; right; now left|].
          cbn. repeat (split; [reflexivity || exact M|]). eapply denotes_incl; [exact I'|exact r5]. }
        assert (Dp : Forall2 (denotes (root :: os ++ [oy])) (l_pending it) (q_pending q)).
        { apply (forall2_impl (P := denotes (root :: os))); [|exact r1]. intros; eapply denotes_incl; eauto. }
        assert (Pn : Forall (fun o => ic_parent (o_cell o) <> null) (os ++ [oy])).
        { apply Forall_app. split; [exact r9|]. constructor; [|constructor]. cbn. rewrite <- K2. exact G1. }
        assert (Rel : forall cpl (cand : R), related root (os ++ [oy])
          (LazyQuery (l_pending it ++ [y]) edges (l_intersections it ++ [y]) cpl (l_current it) cand (q_k q) (q_i q))
          (Query (q_pending q ++ [ChildI label next st x]) edges cpl (Some x) cand (q_k q) (q_i q))).
        { intros cpl cand. constructor; cbn; auto.
          - apply Forall2_app; [exact Dp|constructor; [exact Dy|constructor]].
          - rewrite map_app, r3. reflexivity.
          - eapply denotes_incl; eauto. }
        assert (Lst : length st <= S).
        { destruct (Sq' (ChildI label next st x)) as [X _]; [|exact X]. left.
          rewrite (e6 st eq_refl). apply in_or_app. right. now left. }
        assert (Bn : bounded S (os ++ [oy])).
        { intros z Hz. apply in_app_or in Hz. destruct Hz as [Hz|[<-|[]]]; [now apply Bd|].
          cbn. now rewrite <- (map_length snd), M. }
        destruct (spend b4) as [b5|] eqn:E5.
        2: { eexists _, _, _, _, base, (os ++ [oy]). split; [reflexivity|].
             split; [intros X; exact (False_ind _ (spend_none E5 (Hb4 X)))|].
             split; [apply keeps_refl|]. split; [exact Ho''|]. split; [exact Bn|].
             exists (Query (q_pending q) edges (q_complete q) (Some x) (q_candidate q) (q_k q) (q_i q)). split.
             - constructor; cbn; auto; [now rewrite map_app, r3|]. eapply denotes_incl; eauto.
             - constructor; cbn; auto. rewrite e1. apply sub_refl. }
        assert (Hb5 : b = None -> b5 = None) by (intros X; apply (spend_some E5); auto).
        destruct (ModelDawg.read h next) as [nd| |] eqn:Er; try discriminate. cbn [rbind] in *.
        assert (Ok5 : forall q1, q1 = q' -> c = false ->
          q' = Query (q_pending q ++ [ChildI label next st x]) edges (q_complete q) (Some x) (q_candidate q) (q_k q) (q_i q) ->
          exists (b'' : budget) w' it' r base' os', Ok (b5, w2, LazyQuery (l_pending it ++ [y]) edges (l_intersections it ++ [y])
            (l_complete it) (l_current it) (l_candidate it) (q_k q) (q_i q), Some false) = Ok (b'', w', it', r) /\
          (b = None -> b'' = None /\ r <> None) /\
          keeps base base' /\ owns w' base' (os' ++ rest) /\ bounded S os' /\
          match r with
          | Some c' => c' = c /\ related root os' it' q' /\ base' = base
          | None => exists q'', related root os' it' q'' /\ cut q q' q''
          end).
        { intros q1 _ Hc Hq. eexists _, _, _, _, base, (os ++ [oy]). split; [reflexivity|].
          split; [intros X; split; [now apply Hb5|discriminate]|].
          split; [apply keeps_refl|]. split; [exact Ho''|]. split; [exact Bn|].
          split; [now symmetry|]. split; [|reflexivity]. rewrite Hq, r4, r6. apply Rel. }
        destruct (nfin nd).
        * unfold w2 at 1 2. cbn [w_st w_pos]. rewrite (mread_ok S1 S3). cbn [rbind].
          assert (Sg : segment (w_pos w1) hd' l' null) by (apply (world_seg C)).
          rewrite (@distance_pointers_ok alg len (w_pos w1) hd' l' fuel Sg)
            by (rewrite <- (map_length snd), M; lia).
          cbn [rbind]. rewrite M. destruct (distance alg st len <=? n)%N.
          -- assert (Es : intersection_str fuel (w_int w2) y = Ok (i_str (ChildI label next st x))).
             { refine (@str_ok w2 (root :: os ++ [oy]) _ _ y fuel Dy _).
               - intros z Hz. exact (readable_in Ho'' Hr Hz).
               - cbn [i_str]. rewrite app_length. cbn. lia. }
             rewrite Es. cbn [rbind]. injection H as <- <-.
             destruct (spend b5) as [b6|] eqn:E6.
             ++ eexists _, _, _, _, base, (os ++ [oy]). split; [reflexivity|].
                split; [intros X; split; [apply (spend_some E6); auto|discriminate]|].
                split; [apply keeps_refl|]. split; [exact Ho''|]. split; [exact Bn|].
                split; [reflexivity|]. split; [apply Rel|reflexivity].
             ++ eexists _, _, _, _, base, (os ++ [oy]). split; [reflexivity|].
                split; [intros X; exact (False_ind _ (spend_none E6 (Hb5 X)))|].
                split; [apply keeps_refl|]. split; [exact Ho''|]. split; [exact Bn|].
                eexists. split; [rewrite r4, r6; apply Rel|]. constructor; cbn; auto using sub_refl.
          -- injection H as <- <-. apply (Ok5 _ eq_refl eq_refl). now rewrite ?Ec.
        * injection H as <- <-. apply (Ok5 _ eq_refl eq_refl). now rewrite ?Ec.
      + destruct T as (m' & ss' & E & C & S1 & S2). injection E as <- <- ->.
        rewrite N.eqb_refl. cbn [negb]. injection H as <- <-.
        eexists _, _, _, _, base, os. split; [reflexivity|].
        split; [intros X; split; [auto|discriminate]|].
        split; [apply keeps_refl|]. split.
        { split; [|split].
          - eapply consists_ext; [|exact Ho1]. destruct C as (_ & _ & _ & F & C). split; [|exact C]. intros p. apply F. intros [].
          - eapply adds_ext; [|exact Ho2]. now split.
          - rewrite Eint. exact Ho3. }
        split; [exact Bd|]. split; [reflexivity|]. split; [|reflexivity].
        rewrite ?Ec. constructor; cbn; auto.
  Qed.
End Step.

(** ** What an interrupted query still has to yield *)
Section Values.
  Context {R : Type} (rt : result_type R).
  Variables (h : heap) (alg : algorithm) (x : str) (n : N) (B S : nat).
  Hypothesis Hx : manageable x n.
  Hypothesis Hn : (n <= SIZE_MAX)%N.
  Hypothesis HB : small_depth B.
  Hypothesis HS : most alg (N.to_nat n) <= S.

  Let good (w : str) : bool := (N.of_nat (dst alg x w) <=? n)%N.
  Let yield (w : str) : R := r_update rt w (N.of_nat (dst alg x w)).
  Let rq := @QueryProofs.rquery R h alg x n B.

  Lemma small_step q v es Q c q' : small S B q -> advance_step rt h alg x n q = Ok (c, q') -> rq q' v es Q ->
    small S B q'.
  Proof.
    intros Sm E [Hp _ _ _]. unfold advance_step in E.
    assert (Low : forall i, In i (q_pending q') -> length (i_str i) <= B /\
      Forall (valid alg x n (length (i_str i))) (i_state i)).
    { intros i Hi. clear - Hp Hi. induction Hp as [|j e l l' P Hp IH]; [destruct Hi|].
      destruct Hi as [->|Hi]; [|auto]. destruct P as [P1 P2 P3 P4]. rewrite P1.
      pose proof (height_pos (snd e)). split; [lia|]. apply P3. }
    destruct (q_edges q) as [|[label next] edges].
    - destruct (q_pending q) as [|i pending] eqn:Ep; [discriminate|].
      destruct (i_state i); [discriminate|]. destruct (ModelDawg.read h (i_node i)); try discriminate.
      cbn [rbind] in E. injection E as <- <-. intros j Hj. apply Sm. left. rewrite Ep. cbn in *.
      destruct Hj as [Hj|Hj]; [now right|]. injection Hj as ->. now left.
    - destruct (q_current q) as [i|] eqn:Ec; [|discriminate]. cbn [deref rbind] in E.
      destruct (characteristic_vector label x (q_k q) (q_i q)) as [cv| |]; try discriminate. cbn [rbind] in E.
      destruct (state_transition alg n (N.of_nat (length x)) (i_state i) cv) as [[st|]| |] eqn:Et; try discriminate;
        cbn [rbind] in E.
      + destruct (ModelDawg.read h next) as [nd| |]; try discriminate. cbn [rbind] in E.
        assert (X : q_pending q' = q_pending q ++ [ChildI label next st i] /\ q_current q' = Some i).
        { destruct (nfin nd); [destruct (_ <=? n)%N|]; injection E as <- <-; auto. }
        destruct X as [X1 X2]. intros j [Hj|Hj].
        * rewrite X1 in Hj. apply in_app_or in Hj. destruct Hj as [Hj|[<-|[]]]; [apply Sm; now left|].
          destruct (Low (ChildI label next st i)) as [L1 L2].
          { rewrite X1. apply in_or_app. right. now left. }
          split; [|exact L1]. cbn [i_state] in *.
          destruct (state_size _ _ _ _ _ L2 (state_transition_distinct _ _ _ _ _ _ Et)) as [_ X]. lia.
        * apply Sm. right. congruence.
      + injection E as <- <-. intros j [Hj|Hj]; apply Sm; [now left|right]. cbn in Hj. congruence.
  Qed.

  Lemma sub_in {A} (l l' : list A) z : subsequence l l' -> In z l -> In z l'.
  Proof. induction 1; cbn; tauto. Qed.

  Lemma sub_forall2 {A C} (P : A -> C -> Prop) l l' : subsequence l l' -> forall k', Forall2 P l' k' ->
    exists k, Forall2 P l k /\ subsequence k k'.
  Proof.
    induction 1 as [|z l l' H IH|z l l' H IH]; intros k' F; inversion F as [|? y ? ky Pz Fz]; subst.
    - exists []. repeat constructor.
    - destruct (IH _ Fz) as (k & F1 & F2). exists (y :: k). split; constructor; auto.
    - destruct (IH _ Fz) as (k & F1 & F2). exists k. split; [exact F1|]. now constructor.
  Qed.

  Lemma sub_unfs es es' : subsequence es es' -> forall ts', unfs h es' ts' ->
    exists ts, unfs h es ts /\ subsequence ts ts'.
  Proof.
    induction 1 as [|z l l' H IH|z l l' H IH]; intros k' F; inversion F as [|c p t ? ts Ut Uts]; subst.
    - exists []. split; [exact (unfs_nil h)|constructor].
    - destruct (IH _ Uts) as (k & F1 & F2). exists ((c, t) :: k). split; [now apply unfs_cons|now constructor].
    - destruct (IH _ Uts) as (k & F1 & F2). exists k. split; [exact F1|]. now constructor.
  Qed.

  Lemma steps_sub es es' Q Q' : subsequence es es' -> subsequence Q Q' ->
    QueryProofs.steps es Q <= QueryProofs.steps es' Q'.
  Proof.
    intros H1 H2. unfold QueryProofs.steps. apply Nat.add_le_mono.
    - induction H1; cbn [fold_right]; lia.
    - induction H2; cbn [fold_right]; lia.
  Qed.

  Lemma cut_ok (q q' q'' : query R) v es Q : cut q q' q'' -> rq q' v es Q -> exists es1 Q1,
    rq q'' v es1 Q1 /\ QueryProofs.steps es1 Q1 <= QueryProofs.steps es Q /\
    subsequence (filter good (QueryProofs.remaining v es1 Q1)) (filter good (QueryProofs.remaining v es Q)).
  Proof.
    intros [c1 c2 c3 c4 c5 c6 c7] [r1 r2 r3 r4].
    destruct (sub_forall2 c1 r1) as (Q1 & F1 & F2). destruct (sub_unfs c2 r2) as (es1 & G1 & G2).
    exists es1, Q1. split; [|split; [now apply steps_sub|apply sub_filter, sub_remaining; assumption]].
    constructor.
    - exact F1.
    - exact G1.
    - intros c t H. apply (r3 c t). eapply sub_in; eauto.
    - intros Hne. rewrite c3, c4, c5. apply r4. intros E. rewrite E in c2. inversion c2. congruence.
  Qed.

  (** [L] are the words to come, in at most [M] steps. *)
  Definition holds (q : query R) (M : nat) (L : list str) : Prop :=
    small S B q /\ exists v es Q, rq q v es Q /\ filter good (QueryProofs.remaining v es Q) = L /\
      QueryProofs.steps es Q <= M.

  Lemma holds_le q M M' L : M <= M' -> holds q M L -> holds q M' L.
  Proof. intros Le [Sm (v & es & Q & H1 & H2 & H3)]. split; [exact Sm|]. exists v, es, Q. repeat (split; [assumption|]). lia. Qed.

  Lemma cut_small (q q' q'' : query R) : cut q q' q'' -> small S B q' -> small S B q''.
  Proof.
    intros [c1 c2 c3 c4 c5 c6 c7] Sm i [Hi|Hi]; apply Sm; [left; eapply sub_in; eauto|right; congruence].
  Qed.

  Lemma work_related root os (it : lazy_query R) q : related root os it q -> lazy_work it = has_work q.
  Proof. apply work_ok. Qed.

  (** The outcome of a number of steps. *)
  Definition outcome (root : own) (q : query R) (M : nat) (L : list str) (b b' : budget) (base : world) (rest : list own)
    (w' : world) (it' : lazy_query R) (done : bool) : Prop :=
    exists base' os' q', (b = None -> b' = None /\ done = true) /\
      keeps base base' /\ owns w' base' (os' ++ rest) /\ bounded S os' /\ related root os' it' q' /\
      if done then base' = base /\
        match L with
        | [] => q_complete q' = q_complete q /\ q_candidate q' = q_candidate q /\ holds q' M []
        | w :: L' => q_complete q' = false /\ q_candidate q' = yield w /\ holds q' M L'
        end
      else q_complete q' = q_complete q /\ q_candidate q' = q_candidate q /\
        exists L', subsequence L' L /\ holds q' M L'.

  Lemma try_loop_ok al order fuel root rest : sound_allocators al -> 6 * S + B + 10 <= fuel ->
    forall rounds q M L b w base os it, holds q M L -> M < rounds -> has_work q = true ->
      owns w base (os ++ rest) -> readable base root -> related root os it q -> bounded S os ->
      exists b' w' it' done, try_loop rt fuel al order h alg x n rounds b w it = Ok (b', w', it', done) /\
        outcome root q M L b b' base rest w' it' done.
  Proof.
    intros HA Hf. induction rounds as [|rounds IH]; intros q M L b w base os it Hq HM HW Ho Hr Hrel Bd; [lia|].
    destruct Hq as [Sm (v & es & Q & Hq & HL & HMs)].
    destruct (@QueryProofs.step_ok R rt h alg x n B Hx Hn HB q v es Q Hq HW)
      as (broke & q1 & v1 & es1 & Q1 & E & Hq1 & Hs & Hb).
    pose proof (small_step Sm E Hq1) as Sm1.
    destruct (@try_step_ok R rt h alg x n q broke q1 S B E Sm Sm1 al order fuel b w base root os rest it HA Hf Ho Hr Hrel Bd)
      as (b' & w1 & it1 & r & base1 & os1 & Et & Hbn & Kb & Ho1 & Bd1 & Hres).
    cbn [try_loop]. rewrite Et. cbn [rbind].
    assert (H1 : holds q1 (QueryProofs.steps es1 Q1) (filter good (QueryProofs.remaining v1 es1 Q1))).
    { split; [exact Sm1|]. exists v1, es1, Q1. auto. }
    destruct r as [c|].
    - destruct Hres as (-> & Hrel1 & ->). destruct broke.
      + exists b', w1, it1, true. split; [reflexivity|]. exists base, os1, q1.
        split; [intros X; split; [now apply Hbn|reflexivity]|].
        split; [exact Kb|]. split; [exact Ho1|]. split; [exact Bd1|]. split; [exact Hrel1|].
        split; [reflexivity|]. destruct Hb as (w0 & Ew & Hc & Hd). fold good yield in Ew, Hc. rewrite <- HL, Ew.
        split; [exact Hd|]. split; [exact Hc|]. eapply holds_le; [|exact H1]. lia.
      + destruct Hb as (Ew & Hc & Hd). fold good in Ew. rewrite (work_related Hrel1).
        destruct (has_work q1) eqn:HW1.
        * destruct (IH q1 (QueryProofs.steps es1 Q1) L b' w1 base os1 it1) as (b2 & w2 & it2 & done & E2 & O2);
            auto; [rewrite <- HL, Ew; exact H1|lia|].
          exists b2, w2, it2, done. split; [exact E2|].
          destruct O2 as (base2 & os2 & q2 & X1 & X2 & X3 & X4 & X5 & X6). exists base2, os2, q2.
          split; [intros X; apply X1; now apply Hbn|]. repeat (split; [assumption|]).
          assert (Lm : forall L0, holds q2 (QueryProofs.steps es1 Q1) L0 -> holds q2 M L0)
            by (intros L0; apply holds_le; lia).
          destruct done.
          -- destruct X6 as [-> X6]. split; [reflexivity|].
             destruct L; destruct X6 as (Y1 & Y2 & Y3); (split; [congruence|split; [congruence|auto]]).
          -- destruct X6 as (Y1 & Y2 & L' & Y3 & Y4). split; [congruence|]. split; [congruence|].
             exists L'. auto.
        * exists b', w1, it1, true. split; [reflexivity|]. exists base, os1, q1.
          split; [intros X; split; [now apply Hbn|reflexivity]|].
          split; [exact Kb|]. split; [exact Ho1|]. split; [exact Bd1|]. split; [exact Hrel1|].
          split; [reflexivity|].
          pose proof (@QueryProofs.no_work R h alg x n B _ _ _ _ Hq1 HW1) as E0.
          rewrite <- HL, Ew. rewrite E0 in *. cbn [filter] in *. split; [exact Hd|]. split; [exact Hc|].
          eapply holds_le; [|exact H1]. lia.
    - destruct Hres as (q2 & Hrel2 & Ct). exists b', w1, it1, false. split; [reflexivity|].
      exists base1, os1, q2. split; [intros X; destruct (Hbn X) as [_ Y]; congruence|].
      split; [exact Kb|]. split; [exact Ho1|]. split; [exact Bd1|]. split; [exact Hrel2|].
      split; [apply (cut_complete Ct)|]. split; [apply (cut_candidate Ct)|].
      destruct (cut_ok Ct Hq1) as (es2 & Q2 & Hq2 & St2 & Sb2). eexists. split.
      2: { split; [exact (cut_small Ct Sm1)|]. exists v1, es2, Q2. split; [exact Hq2|]. split; [reflexivity|]. lia. }
      rewrite <- HL. destruct broke.
      + destruct Hb as (w0 & Ew & _). fold good in Ew. rewrite Ew. now constructor.
      + destruct Hb as (Ew & _). fold good in Ew. now rewrite Ew.
  Qed.

  Lemma holds_complete q M L : holds q M L -> holds (set_complete q) M L.
  Proof.
    intros [Sm (v & es & Q & Hq & HL & HM)]. split; [exact Sm|]. exists v, es, Q.
    split; [|auto]. destruct Hq. constructor; auto.
  Qed.

  (** What an iterator shows and what it would show later, one after the other. *)
  Definition story (q : query R) (M : nat) (l : list R) : Prop := exists L,
    holds q M L /\ l = (if q_complete q then [] else [q_candidate q]) ++ map yield L /\
    (q_complete q = true -> L = []).

  Lemma try_advance_ok al order fuel root rest q M L b w base os it : sound_allocators al ->
    6 * S + B + 10 <= fuel -> M < fuel -> holds q M L ->
    owns w base (os ++ rest) -> readable base root -> related root os it q -> bounded S os ->
    exists b' w' it' done base' os' q', try_advance rt fuel al order h alg x n b w it = Ok (b', w', it', done) /\
      (b = None -> done = true) /\
      keeps base base' /\ owns w' base' (os' ++ rest) /\ bounded S os' /\ related root os' it' q' /\
      if done then base' = base /\ story q' M (map yield L)
      else exists L', subsequence L' L /\ holds q' M L'.
  Proof.
    intros HA Hf HM Hq Ho Hr Hrel Bd. unfold try_advance. rewrite (work_related Hrel).
    destruct (has_work q) eqn:HW.
    - destruct (@try_loop_ok al order fuel root rest HA Hf fuel (set_complete q) M L b w base os (lazy_complete it))
        as (b' & w' & it' & done & E & base' & os' & q' & H1 & H2 & H3 & H4 & H5 & H6);
        auto using holds_complete, complete_related.
      exists b', w', it', done, base', os', q'. split; [exact E|]. split; [intros X; now apply H1|].
      repeat (split; [assumption|]). destruct done.
      + destruct H6 as [-> H6]. split; [reflexivity|]. destruct L as [|w0 L]; destruct H6 as (Y1 & Y2 & Y3).
        * exists []. split; [exact Y3|]. rewrite Y1. auto.
        * exists L. split; [exact Y3|]. rewrite Y1, Y2. split; [reflexivity|discriminate].
      + destruct H6 as (_ & _ & H6). exact H6.
    - exists b, w, (lazy_complete it), true, base, os, (set_complete q). split; [reflexivity|].
      split; [reflexivity|]. split; [apply keeps_refl|]. split; [exact Ho|]. split; [exact Bd|].
      split; [now apply complete_related|]. split; [reflexivity|].
      assert (L = []) as ->.
      { destruct Hq as [_ (v & es & Q & Hq & <- & _)].
        now rewrite (@QueryProofs.no_work R h alg x n B _ _ _ _ Hq HW). }
      exists []. split; [now apply holds_complete|]. auto.
  Qed.

  Variables (r0 : ptr) (t : tree).
  Hypothesis Ht : unf h r0 t.
  Hypothesis Hh : height t <= Datatypes.S B.

  Lemma try_begin_ok al order fuel root rest b w base : sound_allocators al ->
    6 * S + B + 10 <= fuel -> QueryProofs.steps [] [([], t)] < fuel ->
    owns w base rest -> readable base root -> denotes [root] (o_ptr root) (RootI r0 initial_state) ->
    exists b' w' r base', try_begin rt fuel al order h alg x n b w (o_ptr root) = Ok (b', w', r) /\
      (b = None -> r <> None) /\ keeps base base' /\
      match r with
      | None => owns w' base' rest
      | Some it => exists os' q', owns w' base' (os' ++ rest) /\ bounded S os' /\ related root os' it q' /\ base' = base /\
          story q' (QueryProofs.steps [] [([], t)]) (map yield (filter good (words t)))
      end.
  Proof.
    intros HA Hf HM Ho Hr D. unfold try_begin.
    destruct (spend b) as [b1|] eqn:E1.
    2: { exists b, w, None, base. split; [reflexivity|]. split; [intros X; exact (False_ind _ (spend_none E1 X))|].
         split; [apply keeps_refl|exact Ho]. }
    assert (Hb1 : b = None -> b1 = None) by (now apply spend_some).
    destruct (denotes_own D) as (o & [<-|[]] & _ & K3 & K4).
    destruct (readable_owns Ho Hr) as (G1 & G2 & _). rewrite (mread_ok G1 G2). cbn [rbind].
    rewrite K3. cbn [i_node].
    destruct (unf_read _ _ _ Ht) as (nd & Rd & G & So & U & F). rewrite Rd. cbn [rbind].
    set (q0 := fun cand : R => Query [RootI r0 initial_state] [] false None cand 0%N 0%N).
    assert (Hq : forall cand, rq (q0 cand) [] [] [([], t)]).
    { intros cand. constructor; cbn.
      - constructor; [constructor; cbn; auto using represents_initial|constructor].
      - exact (unfs_nil h).
      - tauto.
      - congruence. }
    assert (Sm : forall cand, small S B (q0 cand)).
    { intros cand i [[<-|[]]|Hi]; [|discriminate]. cbn. split; [|lia].
      unfold most in HS. destruct alg; lia. }
    assert (Ew : words t = (if nfin nd then [[]] else []) ++ QueryProofs.remaining [] [] [([], t)]).
    { unfold words, QueryProofs.remaining. destruct t as [f es]. cbn in F. subst f. rewrite enum_cons.
      cbn [children map app flat_map QueryProofs.kids fst snd tedges]. rewrite app_nil_r. reflexivity. }
    assert (Hd : dst alg x [] = length x) by (apply dst_nil_r).
    assert (Hg : good [] = (N.of_nat (length x) <=? n)%N) by (unfold good; rewrite Hd; auto).
    assert (Hq0 : forall cand, holds (q0 cand) (QueryProofs.steps [] [([], t)])
      (filter good (QueryProofs.remaining [] [] [([], t)]))).
    { intros cand. split; [apply Sm|]. exists [], [], [([], t)]. split; [apply Hq|]. split; [reflexivity|lia]. }
    assert (Rel : forall cand : R, related root [] (LazyQuery [o_ptr root] [] [] false null cand 0%N 0%N) (q0 cand)).
    { intros cand. constructor; cbn; auto. }
    destruct (nfin nd && (N.of_nat (length x) <=? n)%N) eqn:Eb.
    - apply andb_prop in Eb. destruct Eb as [Eb1 Eb2]. rewrite Eb1 in Ew. rewrite Eb2 in Hg.
      destruct (spend b1) as [b2|] eqn:E2.
      + eexists _, _, _, base. split; [reflexivity|]. split; [discriminate|]. split; [apply keeps_refl|].
        exists [], (q0 (r_update rt [] (N.of_nat (length x)))). split; [exact Ho|]. split; [intros ? []|].
        split; [apply Rel|]. split; [reflexivity|].
        eexists. split; [apply Hq0|]. split; [|discriminate]. rewrite Ew. cbn [app filter]. rewrite Hg.
        cbn [map q0 q_complete q_candidate app]. f_equal. unfold yield. now rewrite Hd.
      + eexists _, _, _, base. split; [reflexivity|].
        split; [intros X; exact (False_ind _ (spend_none E2 (Hb1 X)))|]. split; [apply keeps_refl|exact Ho].
    - assert (El : filter good (words t) = filter good (QueryProofs.remaining [] [] [([], t)])).
      { rewrite Ew, filter_app. destruct (nfin nd); [|reflexivity]. cbn [andb] in Eb. cbn [filter].
        now rewrite Hg, Eb. }
      destruct (@try_advance_ok al order fuel root rest (q0 (r_default rt)) (QueryProofs.steps [] [([], t)])
        (filter good (words t)) b1 w base [] (LazyQuery [o_ptr root] [] [] false null (r_default rt) 0%N 0%N))
        as (b' & w' & it' & done & base' & os' & q' & E & H1 & H2 & H3 & H4 & H5 & H6); auto.
      { rewrite El. apply Hq0. }
      { intros ? []. }
      rewrite E. cbn [rbind]. destruct done.
      + exists b', w', (Some it'), base'. split; [reflexivity|]. split; [discriminate|]. split; [exact H2|].
        destruct H6 as [-> H6]. exists os', q'. auto 10.
      + destruct (owns_forget H3 (keeps_refl w')) as (base2 & O2 & K2).
        exists b', w', None, base2. split; [reflexivity|]. split; [intros X; discriminate (H1 (Hb1 X))|].
        split; [eapply keeps_trans; eauto|exact O2].
  Qed.
End Values.

(** An exception leaves an iterator at its end, with the value it had. *)
Lemma try_step_throws {R} (rt : result_type R) fuel al order h alg x n b w it b' w' it' r :
  try_step rt fuel al order h alg x n b w it = Ok (b', w', it', r) -> r <> Some true ->
  l_complete it' = l_complete it /\ l_candidate it' = l_candidate it.
Proof.
  unfold try_step. intros H Hr.
  repeat match type of H with
  | (rbind ?a _ = _) => destruct a as [?| |]; cbn [rbind] in H; try discriminate
  | ((let (_, _) := ?a in _) = _) => destruct a
  | (match ?a with _ => _ end = _) => destruct a
  | (if ?a then _ else _) = _ => destruct a
  end; try discriminate; injection H as <- <- <- <-; cbn; auto; congruence.
Qed.

Lemma try_loop_throws {R} (rt : result_type R) fuel al order h alg x n rounds : forall b w it b' w' it',
  try_loop rt fuel al order h alg x n rounds b w it = Ok (b', w', it', false) ->
  l_complete it' = l_complete it /\ l_candidate it' = l_candidate it.
Proof.
  induction rounds as [|rounds IH]; intros b w it b' w' it' H; [discriminate|]. cbn [try_loop] in H.
  destruct (try_step rt fuel al order h alg x n b w it) as [[[[b1 w1] it1] r]| |] eqn:E; try discriminate.
  cbn [rbind] in H. destruct r as [[|]|]; [discriminate| |].
  - destruct (try_step_throws E) as [H1 H2]; [discriminate|].
    destruct (lazy_work it1); [|discriminate]. apply IH in H. destruct H. split; congruence.
  - injection H as <- <- <-. apply (try_step_throws E). discriminate.
Qed.

Lemma try_advance_throws {R} (rt : result_type R) fuel al order h alg x n b w it b' w' it' :
  try_advance rt fuel al order h alg x n b w it = Ok (b', w', it', false) ->
  l_complete it' = true /\ l_candidate it' = l_candidate it.
Proof.
  unfold try_advance. destruct (lazy_work it); [|discriminate]. intros H. apply try_loop_throws in H. exact H.
Qed.

(** With enough memory. *)
Lemma try_step_unlimited {R} (rt : result_type R) fuel al order h alg x n w it :
  try_step rt fuel al order h alg x n None w it =
  do (c, w', it') <- lazy_step rt fuel al order h alg x n w it; Ok (None, w', it', Some c).
Proof.
  unfold try_step, lazy_step. destruct w as [m ss is]. destruct (l_edges it) as [|[label next] edges].
  - destruct (l_pending it) as [|p rest]; [reflexivity|].
    destruct (mread _ p) as [c| |]; try reflexivity. cbn [rbind].
    destruct (mread _ (ic_state c)) as [hd| |]; try reflexivity. cbn [rbind].
    destruct (get_pos _ hd) as [ps| |]; try reflexivity. cbn [rbind].
    destruct (ModelDawg.read h (ic_node c)) as [nd| |]; reflexivity.
  - destruct (mread _ (l_current it)) as [c| |]; try reflexivity. cbn [rbind].
    destruct (characteristic_vector _ _ _ _) as [cv| |]; try reflexivity. cbn [rbind spend].
    rewrite attempt_unlimited, state_transition_alone. cbn [w_pos w_st w_int].
    destruct (state_transition_pointers _ _ _ _ _ _ _ _ _ _ _) as [[[m1 ss1] s]| |]; try reflexivity. cbn [rbind].
    destruct (negb (s =? null)%N); [|reflexivity].
    destruct (new_intersection al (World m1 ss1 is) _) as [y w2].
    destruct (ModelDawg.read h next) as [nd| |]; try reflexivity. cbn [rbind].
    destruct (nfin nd); [|reflexivity].
    destruct (mread (w_st w2) s) as [hd| |]; try reflexivity. cbn [rbind].
    destruct (distance_pointers _ _ _ _ _) as [d| |]; try reflexivity. cbn [rbind].
    destruct (d <=? n)%N; [|reflexivity].
    destruct (intersection_str _ _ _) as [st| |]; reflexivity.
Qed.

Lemma try_loop_unlimited {R} (rt : result_type R) fuel al order h alg x n rounds : forall w it,
  try_loop rt fuel al order h alg x n rounds None w it =
  do (w', it') <- lazy_loop rt fuel al order h alg x n rounds w it; Ok (None, w', it', true).
Proof.
  induction rounds as [|rounds IH]; intros w it; [reflexivity|]. cbn [try_loop lazy_loop].
  rewrite try_step_unlimited.
  destruct (lazy_step rt fuel al order h alg x n w it) as [[[c w1] it1]| |]; try reflexivity. cbn [rbind].
  destruct c; [reflexivity|]. destruct (lazy_work it1); [apply IH|reflexivity].
Qed.

(** ** Programs that go on *)
Lemma replace_app {A} (a b : list A) x y : replace (a ++ x :: b) (length a) y = a ++ y :: b.
Proof. induction a as [|z a IH]; cbn; [reflexivity|]. now rewrite IH. Qed.

Section Runs.
  Context {R : Type} (rt : result_type R).
  Variables (h : heap) (alg : algorithm) (B : nat) (r0 : ptr) (t : tree).
  Hypothesis HB : small_depth B.
  Hypothesis Ht : unf h r0 t.
  Hypothesis Hh : height t <= Datatypes.S B.

  Let M := QueryProofs.steps [] [([], t)].

  Definition all_results (q : str) (n : N) : list R :=
    map (fun w => r_update rt w (N.of_nat (dst alg q w)))
      (filter (fun w => (N.of_nat (dst alg q w) <=? n)%N) (words t)).

  (** A holder, with what it owns. *)
  Definition pair := (list own * option (holder (R := R)))%type.

  Definition feasible (S : nat) (q : str) (n : N) : Prop :=
    manageable q n /\ (n <= SIZE_MAX)%N /\ most alg (N.to_nat n) <= S.

  Definition faithful (S : nat) (root : own) (e : pair) : Prop :=
    match snd e with
    | None => fst e = []
    | Some x => feasible S (term_of x) (bound_of x) /\
        exists lit L, related root (fst e) (iterator_of x) lit /\
          holds h alg (term_of x) (bound_of x) B S lit M L /\
          let later := map (fun w => r_update rt w (N.of_nat (dst alg (term_of x) w))) L in
          subsequence (shown x ++ later) (all_results (term_of x) (bound_of x)) /\
          (interrupted x = false -> shown x ++ later = all_results (term_of x) (bound_of x) /\
             (l_complete (iterator_of x) = true -> L = []))
    end.

  Definition owned_by (es : list pair) : list own := concat (map fst es).
  Lemma owned_by_app a b : owned_by (a ++ b) = owned_by a ++ owned_by b.
  Proof. unfold owned_by. now rewrite map_app, concat_app. Qed.
  Lemma owned_by_middle a e b : Permutation (owned_by (a ++ e :: b)) (fst e ++ owned_by (a ++ b)).
  Proof. rewrite !owned_by_app. change (owned_by (e :: b)) with (fst e ++ owned_by b). apply Permutation_app_swap_app. Qed.

  (** [w1] was there before the first command. *)
  Definition state_ok (S : nat) (root : own) (w1 base w : world) (hs : list (option (holder (R := R)))) : Prop :=
    exists es : list pair, hs = map snd es /\ Forall (faithful S root) es /\
      owns w base (owned_by es) /\ bounded S (owned_by es) /\ keeps w1 base.

  Lemma nth_pairs (es : list pair) i y : nth_error (map snd es) i = Some y ->
    exists a e b, es = a ++ e :: b /\ length a = i /\ snd e = y.
  Proof. apply nth_map. Qed.

  Lemma bounded_middle S a e b : bounded S (owned_by (a ++ e :: b)) ->
    bounded S (fst e) /\ bounded S (owned_by (a ++ b)).
  Proof.
    rewrite !owned_by_app. change (owned_by (e :: b)) with (fst e ++ owned_by b).
    rewrite !bounded_app. tauto.
  Qed.

  Lemma state_put S root w1 base w a e b e' : Forall (faithful S root) (a ++ e :: b) -> faithful S root e' ->
    owns w base (fst e' ++ owned_by (a ++ b)) -> bounded S (fst e') -> bounded S (owned_by (a ++ b)) -> keeps w1 base ->
    state_ok S root w1 base w (replace (map snd (a ++ e :: b)) (length a) (snd e')).
  Proof.
    intros HG He Ho B1 B2 K. exists (a ++ e' :: b). split.
    { rewrite !map_app. cbn [map]. replace (length a) with (length (map snd a)) by apply map_length. apply replace_app. }
    apply Forall_app in HG. destruct HG as [HG1 HG2]. inversion HG2; subst.
    split; [apply Forall_app; split; [auto|constructor; auto]|]. split.
    { eapply owns_perm; [apply Permutation_sym, owned_by_middle|]. exact Ho. }
    split; [|exact K]. rewrite owned_by_app in *. change (owned_by (e' :: b)) with (fst e' ++ owned_by b).
    rewrite !bounded_app in *. tauto.
  Qed.

  Lemma attempt_one_ok al order fuel S root w1 base w hs c b :
    sound_allocators al -> 6 * S + B + 10 <= fuel -> M < fuel ->
    readable w1 root -> denotes [root] (o_ptr root) (RootI r0 initial_state) ->
    state_ok S root w1 base w hs -> (forall q n, c = Open q n -> feasible S q n) ->
    exists w' hs' threw base', attempt_one rt fuel al order h alg (o_ptr root) c b w hs = Ok (w', hs', threw) /\
      state_ok S root w1 base' w' hs' /\ (threw = false -> base' = base) /\ (b = None -> threw = false).
  Proof.
    intros HA Hf HM Hr D (es & -> & HG & Ho & Bd & K) Hc.
    pose proof (keeps_readable K Hr) as Hr'. destruct c as [q n|i|i]; cbn [attempt_one].
    - destruct (Hc q n eq_refl) as (Fq & Fn & FS).
      destruct (@try_begin_ok R rt h alg q n B S Fq Fn HB FS r0 t Ht Hh al order fuel root (owned_by es) b w base)
        as (b' & w' & r & base' & E & Hb & Kb & Hres); auto.
      rewrite E. cbn [rbind]. destruct r as [it|].
      + destruct Hres as (os' & lit & O' & Bd' & Rel & -> & L & Hl & HL & HC).
        eexists _, _, false, base. split; [reflexivity|]. split; [|auto].
        exists (es ++ [(os', Some (Holder q n (visible it) false it))]). split; [now rewrite map_app|].
        split.
        { apply Forall_app. split; [exact HG|]. constructor; [|constructor]. split; [now split|].
          exists lit, L. cbn [fst snd iterator_of term_of bound_of shown interrupted]. split; [exact Rel|]. split; [exact Hl|].
          cbv zeta. unfold visible. rewrite (rel_complete Rel), (rel_candidate Rel).
          unfold all_results. rewrite HL. split; [apply sub_refl|]. intros _. split; [reflexivity|].
          exact HC. }
        split.
        { eapply owns_perm; [|exact O']. rewrite owned_by_app. unfold owned_by at 3. cbn [map concat fst].
          rewrite app_nil_r. apply Permutation_app_comm. }
        split; [|exact K]. rewrite owned_by_app. unfold owned_by at 2. cbn [map concat fst]. rewrite app_nil_r.
        apply bounded_app. auto.
      + eexists _, _, true, base'. split; [reflexivity|]. split; [|split; [discriminate|intros X; now apply Hb in X]].
        exists (es ++ [([], None)]). split; [now rewrite map_app|].
        split; [apply Forall_app; split; [exact HG|constructor; [reflexivity|constructor]]|].
        rewrite owned_by_app. unfold owned_by at 2 4. cbn [map concat fst app]. rewrite app_nil_r.
        split; [exact Hres|]. split; [exact Bd|]. eapply keeps_trans; eauto.
    - destruct (nth_error (map snd es) i) as [[x|]|] eqn:Ei.
      2,3: eexists _, _, false, base; split; [reflexivity|]; split; [exists es; auto 10|auto].
      destruct (nth_pairs Ei) as (ea & e & eb & -> & <- & He).
      pose proof HG as HG0. apply Forall_app in HG0. destruct HG0 as [_ HG2].
      inversion HG2 as [|? ? G1 _]; subst. unfold faithful in G1. rewrite He in G1.
      destruct G1 as ((Fq & Fn & FS) & lit & L & Rel & Hl & Sb & Ex). cbv zeta in Sb, Ex.
      destruct (bounded_middle Bd) as [Bd1 Bd2].
      pose proof (owns_perm (owned_by_middle _ _ _) Ho) as Ho'.
      destruct (@try_advance_ok R rt h alg (term_of x) (bound_of x) B S Fq Fn HB FS al order fuel root
        (owned_by (ea ++ eb)) lit M L b w base (fst e) (iterator_of x))
        as (b' & w' & it' & done & base' & os' & lit' & E & Hb & Kb & O' & Bd' & Rel' & Hres); auto.
      rewrite E. cbn [rbind]. destruct done.
      + destruct Hres as (-> & L' & Hl' & HL & HC).
        eexists _, _, false, base. split; [reflexivity|]. split; [|auto].
        refine (@state_put S root w1 base w' ea e eb (os', Some _) HG _ O' Bd' Bd2 K).
        split; [now split|]. exists lit', L'. cbn [fst snd iterator_of term_of bound_of shown interrupted].
        split; [exact Rel'|]. split; [exact Hl'|]. cbv zeta. unfold visible.
        rewrite (rel_complete Rel'), (rel_candidate Rel'), <- app_assoc, <- HL. split; [exact Sb|].
        intros Hi. split; [now apply Ex|]. exact HC.
      + eexists _, _, true, base'. split; [reflexivity|]. split; [|split; [discriminate|intros X; discriminate (Hb X)]].
        destruct Hres as (L' & Hs & Hl').
        refine (@state_put S root w1 base' w' ea e eb (os', Some _) HG _ O' Bd' Bd2 (keeps_trans K Kb)).
        split; [now split|]. exists lit', L'. cbn [fst snd iterator_of term_of bound_of shown interrupted].
        split; [exact Rel'|]. split; [exact Hl'|]. cbv zeta. split; [|discriminate].
        eapply sub_trans; [exact Sb|]. apply sub_app; [apply sub_refl|]. now apply sub_map.
    - destruct (nth_error (map snd es) i) as [[x|]|] eqn:Ei.
      2,3: eexists _, _, false, base; split; [reflexivity|]; split; [exists es; auto 10|auto].
      destruct (nth_pairs Ei) as (ea & e & eb & -> & <- & He).
      pose proof HG as HG0. apply Forall_app in HG0. destruct HG0 as [_ HG2].
      inversion HG2 as [|? ? G1 _]; subst. unfold faithful in G1. rewrite He in G1.
      destruct G1 as (_ & lit & L & Rel & _).
      destruct (bounded_middle Bd) as [Bd1 Bd2].
      pose proof (owns_perm (owned_by_middle _ _ _) Ho) as Ho'.
      destruct (@delete_owns base (owned_by (ea ++ eb)) S fuel (fst e) ltac:(lia) w Ho' Bd1) as (w' & E' & O').
      unfold lazy_destroy. rewrite (rel_owned Rel), E'. cbn [rbind].
      eexists _, _, false, base. split; [reflexivity|]. split; [|auto].
      refine (@state_put S root w1 base w' ea e eb ([], None) HG _ O' _ Bd2 K); [reflexivity|intros ? []].
  Qed.

  Lemma attempts_ok al order fuel S root w1 : sound_allocators al -> 6 * S + B + 10 <= fuel -> M < fuel ->
    readable w1 root -> denotes [root] (o_ptr root) (RootI r0 initial_state) ->
    forall cs base w hs, state_ok S root w1 base w hs -> (forall q n b, In (Open q n, b) cs -> feasible S q n) ->
    exists w' hs' caught base', attempts rt fuel al order h alg (o_ptr root) cs w hs = Ok (w', hs', caught) /\
      state_ok S root w1 base' w' hs' /\ (caught = 0 -> base' = base) /\
      ((forall c b, In (c, b) cs -> b = None) -> caught = 0).
  Proof.
    intros HA Hf HM Hr D. induction cs as [|[c b] cs IH]; intros base w hs Hs HF; cbn [attempts].
    - eexists _, _, _, base. split; [reflexivity|]. split; [exact Hs|]. auto.
    - destruct (@attempt_one_ok al order fuel S root w1 base w hs c b HA Hf HM Hr D Hs)
        as (w2 & hs2 & threw & base2 & E & Hs2 & Hb & Hn). { intros q n ->. apply (HF q n b). now left. }
      rewrite E. cbn [rbind].
      destruct (IH base2 w2 hs2 Hs2) as (w3 & hs3 & caught & base3 & E3 & Hs3 & Hb3 & Hn3).
      { intros q n b0 H. apply (HF q n b0). now right. }
      rewrite E3. cbn [rbind]. eexists _, _, _, base3. split; [reflexivity|]. split; [exact Hs3|]. split.
      + destruct threw; [discriminate|]. intros X. rewrite (Hb3 X). now apply Hb.
      + intros X. rewrite (Hn (X c b (or_introl eq_refl))). apply Hn3. intros c0 b0 H. apply (X c0 b0). now right.
  Qed.

  Lemma destroy_all_ok fuel S root base es : S < fuel -> forall w,
    Forall (faithful S root) es -> owns w base (owned_by es) -> bounded S (owned_by es) ->
    exists w', destroy_all fuel w (map snd es) = Ok w' /\ owns w' base [].
  Proof.
    intros Hf. induction es as [|e es IH]; intros w HG Ho Bd.
    - exists w. split; [reflexivity|exact Ho].
    - inversion HG as [|? ? G1 G2]; subst. change (owned_by (e :: es)) with (fst e ++ owned_by es) in *.
      apply bounded_app in Bd. cbn [map destroy_all]. unfold faithful in G1. destruct (snd e) as [x|].
      + destruct G1 as (_ & lit & L & Rel & _).
        destruct (@delete_owns base (owned_by es) S fuel (fst e) Hf w Ho) as (w1 & E1 & O1); [tauto|].
        unfold lazy_destroy. rewrite (rel_owned Rel), E1. cbn [rbind]. apply IH; tauto.
      + rewrite G1 in Ho. apply IH; tauto.
  Qed.

  Lemma state_start S root w : state_ok S root w w w [].
  Proof.
    exists []. split; [reflexivity|]. split; [constructor|].
    split; [apply owns_nil; repeat split; reflexivity|]. split; [intros ? []|apply keeps_refl].
  Qed.
End Runs.
