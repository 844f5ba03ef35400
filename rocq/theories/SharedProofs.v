(** * SharedProofs: threads that share a transducer. *)
From Coq Require Import Permutation Relations.
From Verif Require Import Base Spec ModelTransducer ModelDawg ModelQuery ModelState ModelMemory SpecState SpecMemory.
From Verif Require Import PointerProofs MemoryProofs RunProofs ModelShared SpecShared AloneProofs PropsState.
Set Implicit Arguments. Unset Strict Implicit.
Local Open Scope nat_scope.

(** ** A thread with a memory of its own

    The accesses of one thread, seen from a memory in which only this thread
    works, are those of the thread running alone, for some allocators and some
    choices. *)
Definition lstep {A} (h : heap) (s s' : program A * world) : Prop := access h (fst s) (snd s) s'.
Definition lsteps {A} (h : heap) := clos_refl_trans_1n _ (@lstep A h).

Lemma mread_not_oof {A} (m : mem A) p : mread m p <> OOF.
Proof. unfold mread. destruct (p =? null)%N; [discriminate|]. destruct (mget m p); discriminate. Qed.
Lemma mread_inv {A} (m : mem A) p x : mread m p = Ok x -> p <> null /\ mget m p = Some x.
Proof.
  unfold mread. destruct (N.eqb_spec p null); [discriminate|]. destruct (mget m p); [|discriminate].
  cbn. intros E. injection E as ->. auto.
Qed.
Lemma mwrite_inv {A} (m : mem A) p x : mwrite m p x = UB \/
  (mwrite m p x = Ok ((p, Live x) :: m) /\ exists y, p <> null /\ mlook m p = Live y).
Proof.
  unfold mwrite. destruct (mread m p) as [y| |] eqn:E; [|now left|destruct (mread_not_oof E)].
  apply mread_inv in E. destruct E as [N E]. cbn [rbind]. unfold mconst. unfold mget in E.
  destruct (mlook m p) eqn:L; [|now left|discriminate]. right. split; [reflexivity|]. eauto.
Qed.
Lemma mfree_inv {A} (m : mem A) p : mfree m p = UB \/
  (mfree m p = Ok ((p, Gone) :: m) /\ exists y, p <> null /\ mlook m p = Live y).
Proof.
  unfold mfree. destruct (mread m p) as [y| |] eqn:E; [|now left|destruct (mread_not_oof E)].
  apply mread_inv in E. destruct E as [N E]. cbn [rbind]. unfold mconst. unfold mget in E.
  destruct (mlook m p) eqn:L; [|now left|discriminate]. right. split; [reflexivity|]. eauto.
Qed.

(** Adding an event to the history of a class. *)
Definition event (w : world) (c : class) (a : ptr) (e : content (object c)) : world :=
  with_part w c ((a, e) :: part w c).
Arguments event : clear implicits.

Lemma access_inv {A} (h : heap) (p : program A) w s : access h p w s ->
  match p with
  | Return _ | Undefined | NoFuel => False
  | Read c a k => s = after (mread (part w c) a) k (fun _ => w) w
  | Write c a x k => s = after (mwrite (part w c) a x) (fun _ => k) (with_part w c) w
  | New c x k => exists a, a <> null /\ mget (part w c) a = None /\ s = (k a, event w c a (Live x))
  | Free c a k => s = after (mfree (part w c) a) (fun _ => k) (with_part w c) w
  | ReadNode a k => s = after (read h a) k (fun _ => w) w
  | Choose a x b k => exists o, s = after (mwrite (w_pos w) a x) (fun _ => k o) (fun m => World m (w_st w) (w_int w)) w
  end.
Proof. intros H. destruct H; eauto. Qed.

Lemma event_len w c a e c' : length (part w c') <= length (part (event w c a e) c').
Proof. unfold event. destruct c, c'; cbn; lia. Qed.
Lemma event_len_same w c a e : length (part (event w c a e) c) = S (length (part w c)).
Proof. unfold event. destruct c; reflexivity. Qed.

(** What an access does: nothing, or one event. *)
Inductive effect {A} (h : heap) (w : world) : program A -> program A * world -> Prop :=
| eff_read c a k x : a <> null -> mget (part w c) a = Some x -> effect h w (Read c a k) (k x, w)
| eff_node a k n : read h a = Ok n -> effect h w (ReadNode a k) (k n, w)
| eff_write c a x k y : a <> null -> mlook (part w c) a = Live y ->
    effect h w (Write c a x k) (k, event w c a (Live x))
| eff_choose a x b k y o : a <> null -> mlook (w_pos w) a = Live y ->
    effect h w (Choose a x b k) (k o, event w OfPosition a (Live x))
| eff_free c a k y : a <> null -> mlook (part w c) a = Live y ->
    effect h w (Free c a k) (k, event w c a Gone)
| eff_new c x k a : a <> null -> mget (part w c) a = None ->
    effect h w (New c x k) (k a, event w c a (Live x))
| eff_ub p : (forall al order, alone al order h p w = UB) -> effect h w p (Undefined, w).

Lemma access_effect {A} (h : heap) (p : program A) w s : access h p w s -> effect h w p s.
Proof.
  intros H. destruct H as [c a k w|c a x k w|c x k w a Na Fr|c a k w|a k w|a x b k w o].
  - destruct (mread (part w c) a) as [x| |] eqn:E; [|apply eff_ub; intros; cbn; now rewrite E|destruct (mread_not_oof E)].
    apply mread_inv in E. destruct E. cbn. now constructor.
  - destruct (mwrite_inv (part w c) a x) as [E|(E & y & Na & L)]; rewrite E; cbn [after].
    + apply eff_ub. intros. cbn. now rewrite E.
    + econstructor; eauto.
  - now constructor.
  - destruct (mfree_inv (part w c) a) as [E|(E & y & Na & L)]; rewrite E; cbn [after].
    + apply eff_ub. intros. cbn. now rewrite E.
    + econstructor; eauto.
  - destruct (read h a) as [n| |] eqn:E; cbn [after].
    + now constructor.
    + apply eff_ub. intros. cbn. now rewrite E.
    + exfalso. unfold read in E. destruct (a =? null)%N; [discriminate|]. destruct (hget h a); discriminate.
  - destruct (mwrite_inv (w_pos w) a x) as [E|(E & y & Na & L)]; rewrite E; cbn [after].
    + apply eff_ub. intros. cbn. now rewrite E.
    + eapply eff_choose; eauto.
Qed.

Lemma lstep_len {A} (h : heap) (s s' : program A * world) : lstep h s s' ->
  forall c, length (part (snd s) c) <= length (part (snd s') c).
Proof.
  intros H c'. destruct s as [p w]. apply access_effect in H. cbn [fst snd] in H.
  inversion H; subst; cbn [snd]; try lia; apply event_len.
Qed.
Lemma lsteps_len {A} (h : heap) (s s' : program A * world) : lsteps h s s' ->
  forall c, length (part (snd s) c) <= length (part (snd s') c).
Proof.
  intros H c. induction H as [|s s1 s' H1 _ IH]; [lia|]. pose proof (lstep_len H1 c). lia.
Qed.

(** Allocators and choices that agree from now on. *)
Definition agree (al al' : allocators) (o o' : positions -> ptr -> bool) (w : world) : Prop :=
  (forall c m, length (part w c) <= length m -> alloc al c m = alloc al' c m) /\
  (forall m p, length (w_pos w) < length m -> o m p = o' m p).

Lemma agree_later al al' o o' w w' : (forall c, length (part w c) <= length (part w' c)) ->
  agree al al' o o' w -> agree al al' o o' w'.
Proof.
  intros L [H1 H2]. split.
  - intros c m Hm. apply H1. specialize (L c). lia.
  - intros m p Hm. apply H2. specialize (L OfPosition). cbn in L. lia.
Qed.

Lemma alone_agree {A} al al' o o' h (p : program A) : forall w, agree al al' o o' w ->
  alone al o h p w = alone al' o' h p w.
Proof.
  induction p as [x| | |c a k IH|c a x k IH|c x k IH|c a k IH|a k IH|a x b k IH]; intros w H; cbn [alone];
    try reflexivity.
  - destruct (mread (part w c) a); cbn [rbind]; auto.
  - destruct (mwrite_inv (part w c) a x) as [E|(E & _)]; rewrite E; [reflexivity|]. cbn [rbind].
    apply IH. eapply agree_later; [|exact H]. intros c'. exact (event_len w a (Live x) c').
  - rewrite <- (proj1 H c (part w c)) by lia. apply IH. eapply agree_later; [|exact H].
    intros c'. exact (event_len w (alloc al c (part w c)) (Live x) c').
  - destruct (mfree_inv (part w c) a) as [E|(E & _)]; rewrite E; [reflexivity|]. cbn [rbind].
    apply IH. eapply agree_later; [|exact H]. intros c'. exact (event_len w a Gone c').
  - destruct (read h a); cbn [rbind]; auto.
  - destruct (mwrite_inv (w_pos w) a x) as [E|(E & _)]; rewrite E; [reflexivity|]. cbn [rbind].
    rewrite <- (proj2 H) by (cbn; lia).
    apply IH. eapply agree_later; [|exact H]. intros c'. exact (event_len w (c := OfPosition) a (Live x) c').
Qed.

(** Returning [q] at histories of length [n]. *)
Definition pick {A} (n : nat) (q : ptr) (f : mem A -> ptr) (m : mem A) : ptr :=
  if (length m =? n) && negb (q =? null)%N && match mget m q with None => true | Some _ => false end then q else f m.
Definition pick_in (c : class) (n : nat) (q : ptr) (al : allocators) : allocators :=
  match c with
  | OfPosition => Allocators (pick n q (a_pos al)) (a_st al) (a_int al)
  | OfState => Allocators (a_pos al) (pick n q (a_st al)) (a_int al)
  | OfIntersection => Allocators (a_pos al) (a_st al) (pick n q (a_int al))
  end.

Lemma pick_sound {A} n q (f : mem A -> ptr) : mallocator f -> mallocator (pick n q f).
Proof.
  intros H m. unfold pick. destruct (length m =? n); cbn [andb]; [|apply H].
  destruct (N.eqb_spec q null) as [->|Hq]; cbn [negb andb]; [apply H|].
  destruct (mget m q) eqn:E; [apply H|]. auto.
Qed.
Lemma pick_in_sound c n q al : sound_allocators al -> sound_allocators (pick_in c n q al).
Proof. intros (H1 & H2 & H3). destruct c; split; [|split| |split| |split]; cbn; auto; now apply pick_sound. Qed.

Lemma pick_here {A} (m : mem A) q f : q <> null -> mget m q = None -> pick (length m) q f m = q.
Proof.
  intros N F. unfold pick. rewrite Nat.eqb_refl, F. destruct (N.eqb_spec q null); [contradiction|]. reflexivity.
Qed.
Lemma pick_other {A} (m : mem A) n q f : length m <> n -> pick n q f m = f m.
Proof. intros N. unfold pick. apply Nat.eqb_neq in N. now rewrite N. Qed.
Lemma alloc_pick c q al (m : mem (object c)) : q <> null -> mget m q = None ->
  alloc (pick_in c (length m) q al) c m = q.
Proof. intros N F. destruct c; apply pick_here; assumption. Qed.
Lemma agree_pick w c q al o : agree (pick_in c (length (part w c)) q al) al o o (event w c q Gone).
Proof.
  split; [|reflexivity]. intros c' m Hm. destruct c, c'; try reflexivity;
    apply pick_other; cbn in Hm |- *; lia.
Qed.

Lemma bump_sound : sound_allocators (Allocators bump bump bump).
Proof. split; [|split]; apply mallocator_bump. Qed.

Lemma realised {A} (h : heap) (s s' : program A * world) : lsteps h s s' ->
  exists al order, sound_allocators al /\
    alone al order h (fst s) (snd s) = alone al order h (fst s') (snd s').
Proof.
  induction 1 as [s|s s1 s' H1 Hs IH].
  - exists (Allocators bump bump bump), (fun _ _ => true). split; [apply bump_sound|reflexivity].
  - destruct IH as (al & order & HA & E). pose proof (lsteps_len Hs) as L. clear Hs. destruct s as [p w], s' as [p' w'].
    apply access_effect in H1. cbn [fst snd] in *.
    inversion H1 as [c a k x N G|a k n G|c a x k y N G|a x b k y o N G|c a k y N G|c x k a N G|q G]; subst; cbn [fst snd] in *.
    + exists al, order. split; [exact HA|]. rewrite <- E. cbn [alone]. unfold mread.
      destruct (N.eqb_spec a null); [contradiction|]. now rewrite G.
    + exists al, order. split; [exact HA|]. rewrite <- E. cbn [alone]. now rewrite G.
    + exists al, order. split; [exact HA|]. rewrite <- E. cbn [alone].
      destruct (mwrite_inv (part w c) a x) as [X|(X & _)].
      * exfalso. unfold mwrite, mread, mget, mconst in X. rewrite G in X.
        destruct (N.eqb_spec a null); [contradiction|discriminate].
      * now rewrite X.
    + set (order' := fun m q => if length m =? S (length (w_pos w)) then o else order m q).
      exists al, order'. split; [exact HA|].
      assert (Ag : forall v, length (part (event w OfPosition a (Live x)) OfPosition) <= length (w_pos v) ->
        agree al al order' order v).
      { intros v Hv. split; [reflexivity|]. intros m q Hm. unfold order'. rewrite event_len_same in Hv. cbn in Hv.
        destruct (Nat.eqb_spec (length m) (S (length (w_pos w)))); [lia|reflexivity]. }
      rewrite (alone_agree h p' (Ag w' (L OfPosition))), <- E. cbn [alone].
      destruct (mwrite_inv (w_pos w) a x) as [X|(X & _)].
      * exfalso. unfold mwrite, mread, mget, mconst in X. rewrite G in X.
        destruct (N.eqb_spec a null); [contradiction|discriminate].
      * rewrite X. cbn [rbind]. replace (order' ((a, Live x) :: w_pos w) b) with o.
        -- apply (alone_agree h (k o) (Ag (event w OfPosition a (Live x)) (Nat.le_refl _))).
        -- unfold order'. cbn [length]. now rewrite Nat.eqb_refl.
    + exists al, order. split; [exact HA|]. rewrite <- E. cbn [alone].
      destruct (mfree_inv (part w c) a) as [X|(X & _)].
      * exfalso. unfold mfree, mread, mget, mconst in X. rewrite G in X.
        destruct (N.eqb_spec a null); [contradiction|discriminate].
      * now rewrite X.
    + exists (pick_in c (length (part w c)) a al), order. split; [now apply pick_in_sound|].
      pose proof (@agree_pick w c a al order) as Ag.
      assert (Ev : forall e, forall c', length (part (event w c a Gone) c') <= length (part (event w c a e) c')).
      { intros e c'. unfold event. destruct c, c'; cbn; lia. }
      rewrite (alone_agree h p' (w := w') (agree_later (fun c' => Nat.le_trans _ _ _ (Ev (Live x) c') (L c')) Ag)), <- E.
      cbn [alone]. cbv zeta. rewrite alloc_pick by assumption.
      apply (alone_agree h (k a)). eapply agree_later; [|exact Ag]. apply Ev.
    + exists al, order. split; [exact HA|]. rewrite G. rewrite <- E. reflexivity.
Qed.

(** ** The memories of the threads and the memory they share *)

(** Everything constant. *)
Definition freeze {A} (m : mem A) : mem A :=
  map (fun e => (fst e, match snd e with Live x => Constant x | c => c end)) m.
Lemma mlook_freeze {A} (m : mem A) p :
  mlook (freeze m) p = match mlook m p with Live x => Constant x | c => c end.
Proof. induction m as [|[q e] m IH]; cbn; [reflexivity|]. destruct (p =? q)%N; auto. Qed.
Lemma mget_freeze {A} (m : mem A) p : mget (freeze m) p = mget m p.
Proof. unfold mget. rewrite mlook_freeze. now destruct (mlook m p). Qed.
Definition freeze_world (w : world) : world := World (freeze (w_pos w)) (freeze (w_st w)) (freeze (w_int w)).

Lemma freeze_segment m l : forall p q, segment m p l q -> segment (freeze m) p l q.
Proof. intros p q. apply segment_frame. intros. apply mget_freeze. Qed.
Lemma freeze_readable w o : readable w o -> readable (freeze_world w) o.
Proof.
  intros (G1 & G2 & G3 & G4 & G5). unfold readable, freeze_world. cbn. rewrite !mget_freeze.
  repeat (split; [assumption|]). now apply freeze_segment.
Qed.

(** [w1]: what was there before; [w]: the shared memory; [ms]: the memories of the
    threads, in which what was there before is constant. *)
Record fits {A} (w1 w : mem A) (ms : list (mem A)) : Prop := Fits {
  f_old : forall a x, mget w1 a = Some x -> mget w a = Some x;
  f_in : forall i m, nth_error ms i = Some m -> forall a x, mget m a = Some x -> mget w a = Some x;
  f_own : forall i j m m', i <> j -> nth_error ms i = Some m -> nth_error ms j = Some m' ->
    forall a x, mlook m a = Live x -> mget m' a = None;
  f_all : forall a x, mget w a = Some x ->
    mget w1 a = Some x \/ exists i m, nth_error ms i = Some m /\ mlook m a = Live x;
  f_const : forall a, mconst w a = mconst w1 a;
  f_frozen : forall i m, nth_error ms i = Some m -> forall a x, mlook m a = Constant x <-> mget w1 a = Some x }.

Lemma fits_start {A} (w : mem A) n : fits w w (repeat (freeze w) n).
Proof.
  assert (R : forall i m, nth_error (repeat (freeze w) n) i = Some m -> m = freeze w).
  { intros i m H. apply nth_error_In in H. now apply repeat_spec in H. }
  constructor; auto.
  - intros i m H a x. rewrite (R i m H), mget_freeze. auto.
  - intros i j m m' _ H _ a x. rewrite (R i m H), mlook_freeze. destruct (mlook w a); discriminate.
  - intros i m H a x. rewrite (R i m H), mlook_freeze. unfold mget. destruct (mlook w a); split; congruence.
Qed.

Lemma nth_error_put {A} (l1 l2 : list A) x y i :
  nth_error (l1 ++ y :: l2) i = if i =? length l1 then Some y else nth_error (l1 ++ x :: l2) i.
Proof.
  revert i. induction l1 as [|z l1 IH]; intros [|i]; cbn; auto.
Qed.

Lemma fits_event {A} (w1 w : mem A) l1 m l2 a e : fits w1 w (l1 ++ m :: l2) ->
  (forall x, e <> Constant x) -> mget w1 a = None ->
  (forall j m', j <> length l1 -> nth_error (l1 ++ m :: l2) j = Some m' -> mget m' a = None) ->
  fits w1 ((a, e) :: w) (l1 ++ ((a, e) :: m) :: l2).
Proof.
  intros F Ne N1 No.
  assert (Cw : mconst w a = false). { rewrite (f_const F). unfold mconst. unfold mget in N1. now destruct (mlook w1 a). }
  assert (Mi : nth_error (l1 ++ m :: l2) (length l1) = Some m).
  { rewrite nth_error_app2, Nat.sub_diag; [reflexivity|lia]. }
  assert (S : forall i m', nth_error (l1 ++ ((a, e) :: m) :: l2) i = Some m' ->
    (i = length l1 /\ m' = (a, e) :: m) \/ (i <> length l1 /\ nth_error (l1 ++ m :: l2) i = Some m' /\ mget m' a = None)).
  { intros i m' H. rewrite (nth_error_put l1 l2 m) in H. destruct (Nat.eqb_spec i (length l1)).
    - left. injection H as <-. auto.
    - right. eauto. }
  constructor.
  - intros b x H. unfold mget. cbn [mlook]. destruct (N.eqb_spec b a); [subst; congruence|]. apply (f_old F H).
  - intros i m' H b x G. unfold mget. cbn [mlook]. destruct (S i m' H) as [[-> ->]|(Ni & H' & Fr)].
    + unfold mget in G. cbn [mlook] in G. destruct (N.eqb_spec b a); [exact G|]. exact (f_in F Mi G).
    + destruct (N.eqb_spec b a); [subst; congruence|]. exact (f_in F H' G).
  - intros i j m1 m2 Nij H1 H2 b x L.
    destruct (S i m1 H1) as [[-> ->]|(Ni & H1' & Fr1)], (S j m2 H2) as [[-> ->]|(Nj & H2' & Fr2)].
    + contradiction.
    + cbn [mlook] in L. destruct (N.eqb_spec b a); [subst; exact Fr2|]. exact (f_own F Nij Mi H2' L).
    + unfold mget. cbn [mlook]. destruct (N.eqb_spec b a).
      * subst. unfold mget in Fr1. rewrite L in Fr1. discriminate.
      * exact (f_own F Nij H1' Mi L).
    + exact (f_own F Nij H1' H2' L).
  - intros b x G. unfold mget in G. cbn [mlook] in G. destruct (N.eqb_spec b a) as [->|Nb].
    + right. exists (length l1), ((a, e) :: m). split; [rewrite nth_error_app2, Nat.sub_diag; [reflexivity|lia]|].
      cbn [mlook]. rewrite N.eqb_refl. destruct e as [y|y|]; [congruence|destruct (Ne y eq_refl)|discriminate].
    + destruct (f_all F G) as [G'|(i & m' & Hi & L)]; [auto|]. right.
      destruct (Nat.eq_dec i (length l1)) as [->|Ni].
      * assert (m' = m) as -> by congruence. exists (length l1), ((a, e) :: m).
        split; [rewrite nth_error_app2, Nat.sub_diag; [reflexivity|lia]|]. cbn [mlook].
        destruct (N.eqb_spec b a); [contradiction|exact L].
      * exists i, m'. split; [|exact L]. rewrite (nth_error_put l1 l2 m). apply Nat.eqb_neq in Ni. now rewrite Ni.
  - intros b. unfold mconst. cbn [mlook]. destruct (N.eqb_spec b a) as [->|Nb]; [|apply (f_const F)].
    fold (mconst w1 a). rewrite <- (f_const F), Cw. destruct e as [y|y|]; auto. destruct (Ne y eq_refl).
  - intros i m' H b x. destruct (S i m' H) as [[-> ->]|(Ni & H' & _)]; [|apply (f_frozen F H')].
    cbn [mlook]. destruct (N.eqb_spec b a) as [->|Nb]; [|apply (f_frozen F Mi)]. rewrite N1.
    split; [intros ->; destruct (Ne x eq_refl)|discriminate].
Qed.

(** ** Threads *)
Section Threads.
  Context {A : Type}.
  Variables (h : heap) (w1 : world).

  (** A thread: the program it started with, what is left of it, its memory. *)
  Record thread := Thread { t_start : program A; t_now : program A; t_mem : world }.

  (** Programs that do not go wrong alone. *)
  Definition safe (p : program A) : Prop := forall q v, lsteps h (p, freeze_world w1) (q, v) ->
    q <> Undefined /\ q <> NoFuel.

  Definition together (w : world) (ts : list (program A)) (ps : list (program A)) (l : list thread) : Prop :=
    map t_start l = ps /\ map t_now l = ts /\
    Forall (fun t => lsteps h (t_start t, freeze_world w1) (t_now t, t_mem t)) l /\
    forall c, fits (part w1 c) (part w c) (map (fun t => part (t_mem t) c) l).

  Lemma freeze_part w c : part (freeze_world w) c = freeze (part w c).
  Proof. now destruct c. Qed.

  Lemma together_start ps : together w1 ps ps (map (fun p => Thread p p (freeze_world w1)) ps).
  Proof.
    split; [rewrite map_map; apply map_id|]. split; [rewrite map_map; apply map_id|]. split.
    - apply Forall_forall. intros t Ht. apply in_map_iff in Ht. destruct Ht as (p & <- & _). apply rt1n_refl.
    - intros c. rewrite map_map. cbn [t_mem]. rewrite freeze_part.
      replace (map (fun _ => freeze (part w1 c)) ps) with (repeat (freeze (part w1 c)) (length ps)).
      + apply fits_start.
      + induction ps as [|p ps IH]; cbn; [reflexivity|]. now rewrite IH.
  Qed.

  Lemma event_other w c a e c' : c' <> c -> part (event w c a e) c' = part w c'.
  Proof. intros N. destruct c, c'; try reflexivity; now destruct N. Qed.
  Lemma event_same w c a e : part (event w c a e) c = (a, e) :: part w c.
  Proof. now destruct c. Qed.
  Lemma class_dec (c c' : class) : {c = c'} + {c <> c'}.
  Proof. decide equality. Qed.

  Lemma fits_world w l1 t l2 c a e p' :
    (forall c, fits (part w1 c) (part w c) (map (fun t => part (t_mem t) c) (l1 ++ t :: l2))) ->
    (forall x, e <> Constant x) -> mget (part w1 c) a = None ->
    (forall j t', j <> length l1 -> nth_error (l1 ++ t :: l2) j = Some t' -> mget (part (t_mem t') c) a = None) ->
    forall c', fits (part w1 c') (part (event w c a e) c')
      (map (fun t => part (t_mem t) c') (l1 ++ Thread (t_start t) p' (event (t_mem t) c a e) :: l2)).
  Proof.
    intros F Ne N1 No c'. rewrite map_app. cbn [map t_mem].
    destruct (class_dec c' c) as [->|Nc].
    - rewrite !event_same. apply fits_event; auto.
      + specialize (F c). rewrite map_app in F. exact F.
      + rewrite map_length. intros j m' Nj H.
        change (part (t_mem t) c :: map (fun t => part (t_mem t) c) l2) with (map (fun t => part (t_mem t) c) (t :: l2)) in H.
        rewrite <- map_app, nth_error_map in H. destruct (nth_error (l1 ++ t :: l2) j) eqn:E; [|discriminate].
        injection H as <-. eapply No; eauto.
    - rewrite !event_other by exact Nc. specialize (F c'). rewrite map_app in F. exact F.
  Qed.

  Lemma lsteps_snoc (s s1 s2 : program A * world) : lsteps h s s1 -> lstep h s1 s2 -> lsteps h s s2.
  Proof.
    intros H H1. apply clos_rt_rt1n. eapply rt_trans; [apply clos_rt1n_rt; exact H|]. now apply rt_step.
  Qed.

  (** What the memory of one thread says about an object. *)
  Lemma live_elsewhere w ts ps l1 t l2 c a y : together w ts ps (l1 ++ t :: l2) -> mlook (part (t_mem t) c) a = Live y ->
    mget (part w c) a = Some y /\ mconst (part w c) a = false /\ mget (part w1 c) a = None /\
    (forall j t', j <> length l1 -> nth_error (l1 ++ t :: l2) j = Some t' -> mget (part (t_mem t') c) a = None).
  Proof.
    intros (_ & _ & _ & F) L. specialize (F c).
    assert (H : nth_error (map (fun t => part (t_mem t) c) (l1 ++ t :: l2)) (length l1) = Some (part (t_mem t) c)).
    { rewrite nth_error_map, nth_error_app2, Nat.sub_diag; [reflexivity|lia]. }
    assert (G : mget (part (t_mem t) c) a = Some y) by (unfold mget; now rewrite L).
    assert (N1 : mget (part w1 c) a = None).
    { destruct (mget (part w1 c) a) as [x|] eqn:E; [|reflexivity]. apply (f_frozen F H) in E. congruence. }
    split; [exact (f_in F H G)|]. split; [|split; [exact N1|]].
    - rewrite (f_const F). unfold mconst. unfold mget in N1. now destruct (mlook (part w1 c) a).
    - intros j t' Nj Hj. assert (Nj' : length l1 <> j) by congruence. apply (f_own F Nj' H) with (x := y); auto.
      now rewrite nth_error_map, Hj.
  Qed.

  Lemma live_look {B} (m : mem B) a y : mget m a = Some y -> mconst m a = false -> mlook m a = Live y.
  Proof. unfold mget, mconst. destruct (mlook m a); congruence. Qed.

  Lemma free_elsewhere w ts ps l c a : together w ts ps l -> mget (part w c) a = None ->
    mget (part w1 c) a = None /\ forall t, In t l -> mget (part (t_mem t) c) a = None.
  Proof.
    intros (_ & _ & _ & F) N. specialize (F c). split.
    - destruct (mget (part w1 c) a) eqn:E; [|reflexivity]. apply (f_old F) in E. congruence.
    - intros t Ht. destruct (mget (part (t_mem t) c) a) as [x|] eqn:E; [|reflexivity].
      apply In_nth_error in Ht. destruct Ht as [i Hi].
      assert (H : nth_error (map (fun t => part (t_mem t) c) l) i = Some (part (t_mem t) c)) by now rewrite nth_error_map, Hi.
      rewrite (f_in F H E) in N. discriminate.
  Qed.

  (** The next access of a thread that is safe does in the shared memory what it
      does in the thread's own memory. *)
  Lemma turn_together w ts ps l w' ts' : (forall p, In p ps -> safe p) -> together w ts ps l ->
    turn h (w, ts) (w', ts') -> exists l', together w' ts' ps l'.
  Proof.
    intros HS T H. inversion H as [w0 before p after_ p' w0' Ha E1 E2]. subst w0 ts w0' ts'. clear H.
    pose proof T as (Eps & Ets & Ch & F).
    assert (Sp : exists l1 t l2, l = l1 ++ t :: l2 /\ map t_now l1 = before /\ t_now t = p /\ map t_now l2 = after_).
    { clear - Ets. revert l Ets. induction before as [|b before IH]; intros [|t l] Ets; try discriminate.
      - cbn in Ets. injection Ets as <- <-. exists [], t, l. auto.
      - cbn in Ets. injection Ets as <- Ets. destruct (IH l Ets) as (l1 & t' & l2 & -> & <- & <- & <-).
        exists (t :: l1), t', l2. auto. }
    destruct Sp as (l1 & t & l2 & -> & <- & <- & <-). clear Ets.
    assert (Ct : lsteps h (t_start t, freeze_world w1) (t_now t, t_mem t)).
    { rewrite Forall_forall in Ch. apply Ch. apply in_elt. }
    assert (St : safe (t_start t)). { apply HS. rewrite <- Eps. apply in_map. apply in_elt. }
    (* the thread does not go wrong in its own memory *)
    assert (Sf : forall q v, access h (t_now t) (t_mem t) (q, v) -> q <> Undefined /\ q <> NoFuel).
    { intros q v Hq. apply (St q v). eapply lsteps_snoc; [exact Ct|exact Hq]. }
    assert (K : forall p' v', access h (t_now t) (t_mem t) (p', v') ->
      (forall c, fits (part w1 c) (part w' c) (map (fun t => part (t_mem t) c) (l1 ++ Thread (t_start t) p' v' :: l2))) ->
      exists l', together w' (map t_now l1 ++ p' :: map t_now l2) ps l').
    { intros q v Hq HF. exists (l1 ++ Thread (t_start t) q v :: l2). split; [|split; [|split; [|exact HF]]].
      - rewrite <- Eps, !map_app. reflexivity.
      - rewrite map_app. reflexivity.
      - apply Forall_app in Ch. destruct Ch as [Ch1 Ch2]. inversion Ch2; subst.
        apply Forall_app. split; [exact Ch1|]. constructor; [|assumption]. cbn [t_start t_now t_mem].
        eapply lsteps_snoc; [exact Ct|exact Hq]. }
    assert (Same : forall c, fits (part w1 c) (part w c) (map (fun t => part (t_mem t) c) (l1 ++ Thread (t_start t) p' (t_mem t) :: l2))).
    { intros c. specialize (F c). rewrite map_app in F |- *. exact F. }
    assert (Ht : nth_error (l1 ++ t :: l2) (length l1) = Some t) by (rewrite nth_error_app2, Nat.sub_diag; [reflexivity|lia]).
    assert (Li : forall c a y, mlook (part (t_mem t) c) a = Live y -> a <> null ->
      mget (part w c) a = Some y /\ mconst (part w c) a = false /\
      forall e p', (forall x, e <> Constant x) -> forall c', fits (part w1 c') (part (event w c a e) c')
        (map (fun t => part (t_mem t) c') (l1 ++ Thread (t_start t) p' (event (t_mem t) c a e) :: l2))).
    { intros c a y L Na. destruct (live_elsewhere T L) as (G1 & G2 & G3 & G4). split; [exact G1|]. split; [exact G2|].
      intros e q Ne. apply fits_world; auto. }
    apply access_inv in Ha.
    destruct (t_now t) as [x| | |c a k|c a x k|c x k|c a k|a k|a x b k] eqn:Ep; try contradiction.
    - (* Read *)
      pose proof (access_read h c a k (t_mem t)) as X. pose proof X as Y. rewrite (surjective_pairing (after _ _ _ _)) in Y.
      apply Sf in Y. destruct (mread (part (t_mem t) c) a) as [y| |] eqn:E; cbn in Y; try tauto.
      pose proof E as E0. apply mread_inv in E0. destruct E0 as [Na G].
      assert (Gw : mread (part w c) a = Ok y).
      { apply mread_ok; [exact Na|].
        apply (f_in (F c) (i := length l1) (m := part (t_mem t) c)); auto. now rewrite nth_error_map, Ht. }
      rewrite Gw in Ha. cbn [after] in Ha, X. injection Ha as -> ->. eapply K; [exact X|exact Same].
    - (* Write *)
      pose proof (access_write h c a x k (t_mem t)) as X. pose proof X as Y. rewrite (surjective_pairing (after _ _ _ _)) in Y.
      apply Sf in Y. destruct (mwrite_inv (part (t_mem t) c) a x) as [E|(E & y & Na & L)]; rewrite E in X, Y; cbn in Y; try tauto.
      destruct (Li c a y L Na) as (G1 & G2 & G3).
      destruct (mwrite_inv (part w c) a x) as [E'|(E' & _)].
      { exfalso. unfold mwrite in E'. rewrite (mread_ok Na G1) in E'. cbn in E'. rewrite G2 in E'. discriminate. }
      rewrite E' in Ha. cbn [after] in Ha, X. injection Ha as -> ->. eapply K; [exact X|]. apply G3. discriminate.
    - (* New *)
      destruct Ha as (a & Na & Fr & Ha). injection Ha as -> ->. destruct (free_elsewhere T Fr) as [N1 Nt].
      eapply K; [apply access_new; [exact Na|]; apply Nt, in_elt|]. apply fits_world; auto; [discriminate|].
      intros j t' _ Hj. apply Nt. eapply nth_error_In; eauto.
    - (* Free *)
      pose proof (access_free h c a k (t_mem t)) as X. pose proof X as Y. rewrite (surjective_pairing (after _ _ _ _)) in Y.
      apply Sf in Y. destruct (mfree_inv (part (t_mem t) c) a) as [E|(E & y & Na & L)]; rewrite E in X, Y; cbn in Y; try tauto.
      destruct (Li c a y L Na) as (G1 & G2 & G3).
      destruct (mfree_inv (part w c) a) as [E'|(E' & _)].
      { exfalso. unfold mfree in E'. rewrite (mread_ok Na G1) in E'. cbn in E'. rewrite G2 in E'. discriminate. }
      rewrite E' in Ha. cbn [after] in Ha, X. injection Ha as -> ->. eapply K; [exact X|]. apply G3. discriminate.
    - (* ReadNode *)
      pose proof (access_node h a k (t_mem t)) as X. pose proof X as Y. rewrite (surjective_pairing (after _ _ _ _)) in Y.
      apply Sf in Y. destruct (read h a) as [n| |] eqn:E; cbn in Y; try tauto.
      cbn [after] in Ha, X. injection Ha as -> ->. eapply K; [exact X|exact Same].
    - (* Choose *)
      destruct Ha as [o Ha].
      pose proof (access_choose h a x b k (t_mem t) o) as X. pose proof X as Y. rewrite (surjective_pairing (after _ _ _ _)) in Y.
      apply Sf in Y. destruct (mwrite_inv (w_pos (t_mem t)) a x) as [E|(E & y & Na & L)]; rewrite E in X, Y; cbn in Y; try tauto.
      destruct (Li OfPosition a y L Na) as (G1 & G2 & G3). cbn [part object] in G1, G2.
      destruct (mwrite_inv (w_pos w) a x) as [E'|(E' & _)].
      { exfalso. unfold mwrite in E'. rewrite (mread_ok Na G1) in E'. cbn in E'. rewrite G2 in E'. discriminate. }
      rewrite E' in Ha. cbn [after] in Ha, X. injection Ha as -> ->. eapply K; [exact X|]. apply G3. discriminate.
  Qed.

  Lemma turns_together ps s : (forall p, In p ps -> safe p) -> turns h (w1, ps) s ->
    exists l, together (fst s) (snd s) ps l.
  Proof.
    intros HS H. remember (w1, ps) as s0 eqn:E0.
    induction H as [s|s s' s'' H1 IH H2]; subst.
    - exists (map (fun p => Thread p p (freeze_world w1)) ps). apply together_start.
    - destruct (IH eq_refl) as [l T]. destruct s' as [w ts], s'' as [w' ts']. eapply turn_together; eauto.
  Qed.

  (** No races. *)
  Lemma modifies_live (p : program A) c a v : modifies p c a -> (forall q v', access h p v (q, v') -> q <> Undefined) ->
    exists y, mlook (part v c) a = Live y.
  Proof.
    intros M Sf. destruct M as [c a x k|c a k|a x b k].
    - pose proof (access_write h c a x k v) as X.
      destruct (mwrite_inv (part v c) a x) as [E|(E & y & _ & L)]; [|eauto]. rewrite E in X. cbn in X.
      destruct (Sf _ _ X eq_refl).
    - pose proof (access_free h c a k v) as X.
      destruct (mfree_inv (part v c) a) as [E|(E & y & _ & L)]; [|eauto]. rewrite E in X. cbn in X.
      destruct (Sf _ _ X eq_refl).
    - pose proof (access_choose h a x b k v true) as X.
      destruct (mwrite_inv (w_pos v) a x) as [E|(E & y & _ & L)]; [|eauto]. rewrite E in X. cbn in X.
      destruct (Sf _ _ X eq_refl).
  Qed.
  Lemma accesses_there (p : program A) c a v : accesses p c a -> (forall q v', access h p v (q, v') -> q <> Undefined) ->
    exists y, mget (part v c) a = Some y.
  Proof.
    intros M Sf. assert (G : modifies p c a -> exists y, mget (part v c) a = Some y).
    { intros Mo. destruct (modifies_live Mo Sf) as [y L]. exists y. unfold mget. now rewrite L. }
    destruct M as [c a k|c a x k|c a k|a x b k]; try (apply G; constructor; fail).
    pose proof (access_read h c a k v) as X. destruct (mread (part v c) a) as [y| |] eqn:E.
    - apply mread_inv in E. destruct E. eauto.
    - cbn in X. destruct (Sf _ _ X eq_refl).
    - destruct (mread_not_oof E).
  Qed.

  Lemma together_safe w ts ps l t : (forall p, In p ps -> safe p) -> together w ts ps l -> In t l ->
    (t_now t <> Undefined /\ t_now t <> NoFuel) /\
    (forall q v', access h (t_now t) (t_mem t) (q, v') -> q <> Undefined).
  Proof.
    intros HS (Eps & _ & Ch & _) Ht. rewrite Forall_forall in Ch. specialize (Ch t Ht).
    assert (St : safe (t_start t)). { apply HS. rewrite <- Eps. now apply in_map. }
    split; [exact (St _ _ Ch)|]. intros q v Hq. apply (St q v). eapply lsteps_snoc; [exact Ch|exact Hq].
  Qed.

  Lemma no_race w ts ps l : (forall p, In p ps -> safe p) -> together w ts ps l -> ~ data_race ts.
  Proof.
    intros HS T (i & j & p & q & c & a & Nij & Hi & Hj & M & Ac). pose proof T as (_ & <- & _ & F). specialize (F c).
    rewrite nth_error_map in Hi, Hj. destruct (nth_error l i) as [t|] eqn:Ei; [|discriminate]. injection Hi as <-.
    destruct (nth_error l j) as [t'|] eqn:Ej; [|discriminate]. injection Hj as <-.
    destruct (together_safe HS T (nth_error_In _ _ Ei)) as [_ S1].
    destruct (together_safe HS T (nth_error_In _ _ Ej)) as [_ S2].
    destruct (modifies_live M S1) as [y L]. destruct (accesses_there Ac S2) as [z G].
    rewrite (f_own F Nij (m := part (t_mem t) c) (m' := part (t_mem t') c)) with (x := y) in G;
      [discriminate| | |exact L]; now rewrite nth_error_map, ?Ei, ?Ej.
  Qed.

  (** Every program that is not at its end can go on. *)
  Lemma can_go_on (p : program A) w : p <> Undefined -> p <> NoFuel ->
    (exists x, p = Return x) \/ exists s, access h p w s.
  Proof.
    intros N1 N2. destruct p as [x| | |c a k|c a x k|c x k|c a k|a k|a x b k]; try contradiction; [eauto|right..].
    - eexists. apply access_read.
    - eexists. apply access_write.
    - destruct (mallocator_bump (part w c)) as [Na Fr]. eexists. apply (access_new h c x k w _ Na Fr).
    - eexists. apply access_free.
    - eexists. apply access_node.
    - eexists. apply (access_choose h a x b k w true).
  Qed.
End Threads.
