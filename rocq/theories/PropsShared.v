(** * Property C68: threads that share a transducer. *)
From Coq Require Import Permutation Relations.
From Verif Require Import Base Spec ModelTransducer ModelDawg ModelQuery ModelState ModelMemory.
From Verif Require Import SpecState SpecDawg SpecQuery SpecMemory PointerProofs MemoryProofs RunProofs QueryFacts.
From Verif Require Import ModelShared SpecShared AloneProofs SharedProofs PropsState PropsDawg PropsQuery PropsMemory.
Local Open Scope nat_scope.

(** ** What every thread does when it has the memory to itself *)
Lemma threads_run R (rt : result_type R) alg terms h d programs : dictionary terms h d ->
  (forall cs, In cs programs -> forall q n, In (Open q n) cs -> within_limits terms q n) ->
  exists N, forall fuel cs, N <= fuel -> In cs programs -> exists K abs, Forall (right_place rt terms h d alg) abs /\
    forall al order base root, sound_allocators al -> readable base root ->
      denotes [root] (o_ptr root) (RootI (d_root d) [Pos 0 0 false]) ->
      exists w ss, run rt fuel al order h alg (o_ptr root) cs base [] = Ok (w, ss) /\ inv K base root w ss abs.
Proof.
  intros D HL.
  assert (Def : forall q n k, within_limits terms q n -> exists lit, stands_at rt alg h d q n k lit).
  { intros q n k L. destruct (query_after_main _ rt alg terms h d q n k D L) as (it & St & _). eauto. }
  induction programs as [|cs programs IH].
  - exists 0. intros fuel cs _ [].
  - destruct IH as [N1 H1]. { intros cs' Hc. apply HL. now right. }
    destruct (@run_ok R rt terms h d alg Def cs [] (Forall_nil _) (HL cs (or_introl eq_refl))) as (N & K & abs & HP & S).
    exists (Nat.max N1 (N + K + 1)). intros fuel cs' Hf [<-|Hin]; [|apply H1; [lia|exact Hin]].
    exists (Nat.max 0 K), abs. split; [exact HP|]. intros al order base root HA HR De.
    apply (S al order fuel base root base [] 0 HA ltac:(lia) HR De); [exact (inv_start base root)|lia].
Qed.

Lemma skipn_nth {A} (l : list A) i : skipn i l = match nth_error l i with Some x => x :: skipn (S i) l | None => [] end.
Proof. revert i. induction l as [|x l IH]; intros [|i]; cbn; auto. rewrite IH. reflexivity. Qed.
Lemma put_split {R} (ss : list (slot (R := R))) i s : nth_error ss i <> None ->
  put ss i s = firstn i ss ++ s :: skipn (S i) ss.
Proof.
  revert i. induction ss as [|s0 ss IH]; intros [|i] H; cbn in *; try contradiction; [reflexivity|].
  now rewrite IH.
Qed.
Lemma firstn_map {A B} (f : A -> B) l i : firstn i (map f l) = map f (firstn i l).
Proof. revert i. induction l as [|x l IH]; intros [|i]; cbn; auto. now rewrite IH. Qed.
Lemma skipn_map {A B} (f : A -> B) l i : skipn i (map f l) = map f (skipn i l).
Proof. revert i. induction l as [|x l IH]; intros [|i]; cbn; auto. Qed.

Lemma run_which R (rt : result_type R) fuel al order h alg t : forall cs w ss w' ss',
  run rt fuel al order h alg t cs w ss = Ok (w', ss') ->
  map which ss' = fold_left (fun es c => expected_one c es) cs (map which ss).
Proof.
  induction cs as [|c cs IH]; intros w ss w' ss' E; cbn [run fold_left] in *; [now injection E as _ <-|].
  destruct (run_one rt fuel al order h alg t c w ss) as [[w1 ss1]| |] eqn:E1; try discriminate. cbn [rbind] in E.
  rewrite (IH _ _ _ _ E). f_equal. clear IH E. destruct c as [q n|i|i]; cbn [run_one expected_one] in *.
  - destruct (lazy_begin _ _ _ _ _ _ _ _ _ _) as [[w2 it]| |]; try discriminate. injection E1 as _ <-.
    rewrite map_app. reflexivity.
  - rewrite firstn_map, skipn_map, skipn_nth. destruct (nth_error ss i) as [[[[[q n] k] it]|]|] eqn:Ei.
    + destruct (lazy_advance _ _ _ _ _ _ _ _ _ _) as [[w2 it1]| |]; try discriminate. injection E1 as _ <-.
      rewrite put_split by congruence. rewrite map_app. reflexivity.
    + injection E1 as _ <-. cbn [map which]. rewrite <- (firstn_skipn i ss) at 1. rewrite (skipn_nth ss i), Ei, map_app.
      reflexivity.
    + injection E1 as _ <-. cbn [map]. rewrite app_nil_r. rewrite firstn_all2; [reflexivity|].
      now apply nth_error_None.
  - rewrite firstn_map, skipn_map, skipn_nth. destruct (nth_error ss i) as [[[[[q n] k] it]|]|] eqn:Ei.
    + destruct (lazy_destroy _ _ _) as [w2| |]; try discriminate. injection E1 as _ <-.
      rewrite put_split by congruence. rewrite map_app. reflexivity.
    + injection E1 as _ <-. cbn [map which]. rewrite <- (firstn_skipn i ss) at 1. rewrite (skipn_nth ss i), Ei, map_app.
      reflexivity.
    + injection E1 as _ <-. cbn [map]. rewrite app_nil_r. rewrite firstn_all2; [reflexivity|].
      now apply nth_error_None.
Qed.

(** ** C68: threads that share a transducer

    Any number of threads run queries on one transducer, without a lock: each
    begins queries, increments and destroys its own iterators.  They take turns
    after every single access to an object, in any order; [new] returns any free
    address.

    No thread ever runs into undefined behaviour or comes to a halt before its
    end.  There is never a data race.  The objects of the transducer are never
    changed.  When a thread is at its end its iterators are where its commands
    put them and show the result that the query has at this place, as if there
    were no other threads.  When all threads are at their end and have destroyed
    their iterators, exactly what was allocated before they were started is
    allocated, and the transducer can be destroyed. *)
Theorem C68_threads : forall R (rt : result_type R) alg terms h d al base programs,
  sound_allocators al -> dictionary terms h d ->
  (forall cs, In cs programs -> forall q n, In (Open q n) cs -> within_limits terms q n) ->
  exists enough, forall fuel, enough <= fuel ->
  exists w1 t, make_transducer fuel al base (d_root d) = Ok (w1, t) /\
  forall w ts, turns h (w1, map (fun cs => p_run rt fuel alg t cs []) programs) (w, ts) ->
    (forall i p, nth_error ts i = Some p ->
       p <> Undefined /\ p <> NoFuel /\ ((exists ss, p = Return ss) \/ exists s, access h p w s)) /\
    ~ data_race ts /\
    preserved w1 w /\
    (forall i cs ss, nth_error programs i = Some cs -> nth_error ts i = Some (Return ss) ->
       map which ss = expected cs /\
       forall j q n k it results, nth_error ss j = Some (Some (q, n, k, it)) -> yields rt alg h d q n results ->
       match nth_error results k with
       | Some c => l_complete it = false /\ l_candidate it = c
       | None => l_complete it = true
       end) /\
    ((forall p, In p ts -> all_closed p) -> same_memory w w1 /\
       exists w', destroy_transducer fuel w t = Ok w' /\ same_memory w' base).
Proof.
  intros R rt alg terms h d al base programs HA D HL.
  destruct (threads_run R rt alg terms h d programs D HL) as [N HN].
  exists (N + 3). intros fuel Hf.
  destruct (@make_transducer_ok al base (d_root d) fuel HA ltac:(lia)) as (w1 & root & E1 & O1 & De & Ll).
  exists w1, (o_ptr root). split; [exact E1|].
  pose proof (freeze_readable (owns_get O1 (or_introl eq_refl))) as HR.
  set (ps := map (fun cs => p_run rt fuel alg (o_ptr root) cs []) programs).
  (* what a thread can become in its own memory *)
  assert (TH : forall cs q v, In cs programs ->
    lsteps h (p_run rt fuel alg (o_ptr root) cs [], freeze_world w1) (q, v) ->
    q <> Undefined /\ q <> NoFuel /\ forall ss, q = Return ss -> map which ss = expected cs /\
      exists K abs, Forall (right_place rt terms h d alg) abs /\ inv K (freeze_world w1) root v ss abs).
  { intros cs q v Hc Hs. destruct (realised Hs) as (al' & order' & HA' & E). cbn [fst snd] in E.
    rewrite run_alone_ok in E. destruct (HN fuel cs ltac:(lia) Hc) as (K & abs & HP & G).
    destruct (G al' order' (freeze_world w1) root HA' HR De) as (w & ss & Er & I). rewrite Er in E.
    split; [intros ->; discriminate|]. split; [intros ->; discriminate|].
    intros ss0 ->. cbn [alone] in E. injection E as -> ->. split; [exact (run_which _ _ _ _ _ _ _ _ _ _ _ _ _ Er)|].
    eauto. }
  assert (HS : forall p, In p ps -> safe h w1 p).
  { intros p Hp q v Hs. unfold ps in Hp. apply in_map_iff in Hp. destruct Hp as (cs & <- & Hc).
    destruct (TH cs q v Hc Hs) as (G1 & G2 & _). auto. }
  intros w ts Ht. destruct (turns_together HS Ht) as [l T]. cbn [fst snd] in T.
  pose proof T as (Eps & Ets & Ch & F).
  assert (Now : forall i p, nth_error ts i = Some p -> exists t, nth_error l i = Some t /\ t_now t = p).
  { intros i p Hp. rewrite <- Ets, nth_error_map in Hp. destruct (nth_error l i) as [t|]; [|discriminate].
    injection Hp as <-. eauto. }
  assert (Fin : forall i t, nth_error l i = Some t -> forall ss, t_now t = Return ss ->
    exists cs K abs, nth_error programs i = Some cs /\ map which ss = expected cs /\
      Forall (right_place rt terms h d alg) abs /\ inv K (freeze_world w1) root (t_mem t) ss abs).
  { intros i t Hi ss Hr. assert (Hp : nth_error ps i = Some (t_start t)) by (rewrite <- Eps, nth_error_map, Hi; reflexivity).
    unfold ps in Hp. rewrite nth_error_map in Hp. destruct (nth_error programs i) as [cs|] eqn:Ec; [|discriminate].
    injection Hp as Hp. rewrite Forall_forall in Ch. specialize (Ch t (nth_error_In _ _ Hi)). rewrite <- Hp in Ch.
    destruct (TH cs _ _ (nth_error_In _ _ Ec) Ch) as (_ & _ & G). destruct (G ss Hr) as (G1 & K & abs & G2 & G3).
    exists cs, K, abs. auto. }
  split; [|split; [|split; [|split]]].
  - intros i p Hp. destruct (Now i p Hp) as (t & Hi & <-).
    destruct (together_safe HS T (nth_error_In _ _ Hi)) as [[G1 G2] _]. split; [exact G1|]. split; [exact G2|].
    now apply can_go_on.
  - exact (no_race HS T).
  - split; [|split]; intros p x G; [apply (f_old (F OfPosition))|apply (f_old (F OfState))|apply (f_old (F OfIntersection))];
      exact G.
  - intros i cs ss Hc Hr. destruct (Now i _ Hr) as (t & Hi & Et).
    destruct (Fin i t Hi ss Et) as (cs' & K & abs & Hc' & W & HP & es & -> & -> & HG & _ & _).
    assert (cs' = cs) as -> by congruence. split; [exact W|].
    intros j q n k it results Hj Y. destruct (nth_map Hj) as (a & e & b & -> & _ & Es).
    rewrite Forall_forall in HG. specialize (HG e (in_elt _ _ _)). unfold good in HG. rewrite Es in HG.
    destruct (e_abs e) as [[[[q' n'] k'] lit]|] eqn:Ea; [|contradiction]. destruct HG as [Eq Rel].
    injection Eq as <- <- <-.
    assert (P : right_place rt terms h d alg (Some (q, n, k, lit))).
    { rewrite Forall_forall in HP. apply HP. rewrite <- Ea. apply in_map. apply in_elt. }
    destruct P as [Lq St]. pose proof (stands_at_result _ _ _ _ _ _ _ _ _ _ D Lq St Y) as X.
    rewrite (rel_complete Rel), (rel_candidate Rel). exact X.
  - intros HC.
    assert (Al : forall i t, nth_error l i = Some t -> alike_world (t_mem t) (freeze_world w1)).
    { intros i t Hi. destruct (HC (t_now t)) as (ss & Er & HNone).
      { rewrite <- Ets. apply in_map. eapply nth_error_In; eauto. }
      destruct (Fin i t Hi ss Er) as (cs & K & abs & _ & _ & _ & es & -> & -> & HG & Ow & _).
      rewrite (owned_closed HG HNone) in Ow. now apply owns_alike. }
    assert (Same : forall c, alike (part w c) (part w1 c)).
    { intros c. split; [|apply (f_const (F c))]. intros a. destruct (mget (part w c) a) as [x|] eqn:G.
      - destruct (f_all (F c) G) as [G'|(i & m & Hi & L)]; [auto|]. rewrite nth_error_map in Hi.
        destruct (nth_error l i) as [t|] eqn:Ei; [|discriminate]. injection Hi as <-.
        assert (X : mget (part (t_mem t) c) a = mget (part w1 c) a).
        { destruct (Al i t Ei) as ([X1 _] & [X2 _] & [X3 _]). rewrite <- (mget_freeze (part w1 c)).
          destruct c; [apply X1|apply X2|apply X3]. }
        rewrite <- X. unfold mget. now rewrite L.
      - destruct (mget (part w1 c) a) eqn:G'; [|reflexivity]. apply (f_old (F c)) in G'. congruence. }
    assert (Ow : owns w w1 []).
    { apply owns_nil. split; [apply (Same OfPosition)|]. split; [apply (Same OfState)|apply (Same OfIntersection)]. }
    split; [now apply owns_same|]. pose proof (owns_trans O1 Ow) as O4. cbn [app] in O4.
    destruct (@delete_own w base root [] fuel O4 ltac:(lia)) as (w4 & E4 & O5).
    exists w4. split; [exact E4|]. now apply owns_same.
Qed.
Print Assumptions C68_threads.

(** What a thread does when it runs alone is what the model of one thread (C50)
    does. *)
Theorem C68_alone : forall R (rt : result_type R) fuel al order h alg t cs ss w,
  alone al order h (p_run rt fuel alg t cs ss) w = run rt fuel al order h alg t cs w ss.
Proof. intros. apply run_alone_ok. Qed.
Print Assumptions C68_alone.

(** No schedule lets the threads run for ever. *)
Inductive smaller {A} : program A -> program A -> Prop :=
| sm_read c a k x : smaller (k x) (Read c a k)
| sm_write c a x k : smaller k (Write c a x k)
| sm_new c x k a : smaller (k a) (New c x k)
| sm_free c a k : smaller k (Free c a k)
| sm_node a k n : smaller (k n) (ReadNode a k)
| sm_choose a x b k o : smaller (k o) (Choose a x b k)
| sm_undefined p : p <> Undefined -> smaller Undefined p.

Lemma smaller_wf {A} : well_founded (@smaller A).
Proof.
  assert (U : Acc (@smaller A) Undefined).
  { constructor. intros q H. inversion H; subst. contradiction. }
  intros p. induction p as [x| | |c a k IH|c a x k IH|c x k IH|c a k IH|a k IH|a x b k IH]; try exact U;
    constructor; intros q H;
    inversion H; subst;
    repeat match goal with X : existT _ _ _ = existT _ _ _ |- _ =>
      apply Eqdep_dec.inj_pair2_eq_dec in X; [subst|apply class_dec] end; auto.
Qed.

Lemma access_smaller {A} h (p : program A) w p' w' : access h p w (p', w') -> smaller p' p.
Proof.
  intros H. assert (N : p <> Undefined). { intros ->. now apply access_inv in H. }
  apply access_effect in H. inversion H; subst; constructor. exact N.
Qed.

Inductive smaller_in {A} : list (program A) -> list (program A) -> Prop :=
| sm_in before p p' after : smaller p' p -> smaller_in (before ++ p' :: after) (before ++ p :: after).

Lemma smaller_in_wf {A} : well_founded (@smaller_in A).
Proof.
  intros ts. induction ts as [|p ts IH].
  - constructor. intros l H. inversion H. destruct before; discriminate.
  - revert ts IH. induction (smaller_wf p) as [p _ IHp]. intros ts IH.
    induction IH as [ts IHt IHt']. constructor. intros l H. inversion H as [before q q' after Hs E1 E2]. subst l.
    destruct before as [|b before]; cbn in *.
    + injection E2 as -> ->. apply IHp; [exact Hs|]. constructor. exact IHt.
    + injection E2 as -> <-. apply IHt'. now constructor.
Qed.

Theorem C68_terminates : forall A h (f : nat -> world * list (program A)),
  ~ (forall i, turn h (f i) (f (S i))).
Proof.
  intros A h f H.
  assert (G : forall ts, Acc (@smaller_in A) ts -> forall i, snd (f i) = ts -> False).
  { intros ts Ac. induction Ac as [ts _ IH]. intros i E. apply (IH (snd (f (S i)))) with (i := S i); [|reflexivity].
    rewrite <- E. specialize (H i). destruct H as [w before p after p' w' Ha].
    cbn [snd]. constructor. eapply access_smaller; eauto. }
  exact (G _ (smaller_in_wf (snd (f 0))) 0 eq_refl).
Qed.
Print Assumptions C68_terminates.

(** ** A schedule, to see an example *)
Definition next_access {A} (h : heap) (p : program A) (w : world) : program A * world :=
  match p with
  | Return _ | Undefined | NoFuel => (p, w)
  | Read c a k => after (mread (part w c) a) k (fun _ => w) w
  | Write c a x k => after (mwrite (part w c) a x) (fun _ => k) (with_part w c) w
  | New c x k => (k (bump (part w c)), with_part w c (mset (part w c) (bump (part w c)) x))
  | Free c a k => after (mfree (part w c) a) (fun _ => k) (with_part w c) w
  | ReadNode a k => after (read h a) k (fun _ => w) w
  | Choose a x b k => after (mwrite (w_pos w) a x) (fun _ => k true) (fun m => World m (w_st w) (w_int w)) w
  end.
Definition at_end {A} (p : program A) : bool :=
  match p with Return _ | Undefined | NoFuel => true | _ => false end.

Fixpoint play {A} (h : heap) (schedule : list nat) (s : world * list (program A)) : world * list (program A) :=
  match schedule with
  | [] => s
  | i :: schedule' =>
      match nth_error (snd s) i with
      | Some p =>
          if at_end p then play h schedule' s
          else let (p', w') := next_access h p (fst s) in
               play h schedule' (w', firstn i (snd s) ++ p' :: skipn (S i) (snd s))
      | None => play h schedule' s
      end
  end.

Lemma turns_first {A} h (s s' s'' : world * list (program A)) : turn h s s' -> turns h s' s'' -> turns h s s''.
Proof. intros H1 H2. induction H2; [eapply more_turns; [apply no_turn|exact H1]|]. eapply more_turns; eauto. Qed.

Lemma play_turns {A} h schedule : forall s : world * list (program A), turns h s (play h schedule s).
Proof.
  induction schedule as [|i schedule IH]; intros [w ts]; [apply no_turn|]. cbn [play fst snd].
  destruct (nth_error ts i) as [p|] eqn:Ei; [|apply IH]. destruct (at_end p) eqn:Ee; [apply IH|].
  destruct (next_access h p w) as [p' w'] eqn:En. eapply turns_first; [|apply IH].
  assert (Et : ts = firstn i ts ++ p :: skipn (S i) ts).
  { rewrite <- (firstn_skipn i ts) at 1. now rewrite (skipn_nth ts i), Ei. }
  rewrite Et at 1. constructor. rewrite <- En.
  destruct p; try discriminate; cbn [next_access]; try constructor; apply mallocator_bump.
Qed.

(** Two threads on {a, ab, cab, cb}; taking turns after every access, both have
    intersections after 120 accesses, and in the end both have their results. *)
Definition first_thread : list command := [Open cat 2; Increment 0; Increment 0; Open cat 1; Close 1; Close 0].
Definition second_thread : list command := [Open cat 2; Increment 0; Increment 0].
Definition one_by_one (n : nat) : list nat := concat (repeat [0; 1] n).

Definition shared_start : world * ptr := Eval vm_compute in
  match make_transducer 60 sound_bump no_objects (d_root example_dawg) with Ok x => x | _ => (no_objects, null) end.
Definition shared_threads : list (program (list (slot (R := str * N)))) :=
  map (fun cs => p_run as_candidate 60 STANDARD (snd shared_start) cs []) [first_thread; second_thread].

Definition seen {R} (p : program (list (slot (R := R)))) : option (list (option (str * N * nat * bool * R))) :=
  match p with
  | Return ss => Some (map (fun s => match s with
                                     | Some (q, n, k, it) => Some (q, n, k, l_complete it, l_candidate it)
                                     | None => None end) ss)
  | _ => None
  end.

Example C68_case :
  make_transducer 60 sound_bump no_objects (d_root example_dawg) = Ok shared_start /\
  (forall cs, In cs [first_thread; second_thread] -> forall q n, In (Open q n) cs -> within_limits some_terms q n) /\
  (exists w ts, turns example_heap (fst shared_start, shared_threads) (w, ts) /\
     map seen ts = [None; None] /\ length (in_use (w_int w)) = 5 /\ length (in_use (w_st w)) = 7) /\
  (exists w ts, turns example_heap (fst shared_start, shared_threads) (w, ts) /\
     map seen ts = [Some [None; None]; Some [Some (cat, 2%N, 2, false, (scb, 2%N))]]).
Proof.
  split; [vm_compute; reflexivity|]. split.
  { intros cs Hc q n H. repeat (destruct Hc as [<-|Hc]; [repeat (destruct H as [H|H]; [injection H as <- <- || discriminate;
      apply example_limits; discriminate|]); destruct H|]). destruct Hc. }
  split.
  - exists (fst (play example_heap (one_by_one 120) (fst shared_start, shared_threads))),
      (snd (play example_heap (one_by_one 120) (fst shared_start, shared_threads))).
    split; [rewrite <- surjective_pairing; apply play_turns|]. vm_compute. auto.
  - exists (fst (play example_heap (one_by_one 3000) (fst shared_start, shared_threads))),
      (snd (play example_heap (one_by_one 3000) (fst shared_start, shared_threads))).
    split; [rewrite <- surjective_pairing; apply play_turns|]. vm_compute. auto.
Qed.

(** The transducer must not be destroyed as long as queries run: this is a data
    race, and undefined behaviour. *)
Definition destroying : list (program (list (slot (R := str * N)))) :=
  [let! _ := p_delete_intersection 60 (snd shared_start) in Return [];
   p_run as_candidate 60 STANDARD (snd shared_start) second_thread []].

Theorem C68_destroy_refuted :
  (exists w ts, turns example_heap (fst shared_start, destroying) (w, ts) /\ data_race ts) /\
  (exists w ts, turns example_heap (fst shared_start, destroying) (w, ts) /\ In Undefined ts).
Proof.
  split.
  - exists (fst (play example_heap (repeat 0 5) (fst shared_start, destroying))),
      (snd (play example_heap (repeat 0 5) (fst shared_start, destroying))).
    split; [rewrite <- surjective_pairing; apply play_turns|].
    exists 0, 1. eexists _, _, OfIntersection, (snd shared_start). split; [discriminate|].
    split; [reflexivity|]. split; [reflexivity|]. split; constructor.
  - exists (fst (play example_heap (repeat 0 6 ++ [1]) (fst shared_start, destroying))),
      (snd (play example_heap (repeat 0 6 ++ [1]) (fst shared_start, destroying))).
    split; [rewrite <- surjective_pairing; apply play_turns|]. vm_compute. auto.
Qed.
Print Assumptions C68_destroy_refuted.
