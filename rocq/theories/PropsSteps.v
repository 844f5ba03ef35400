(** * Property C77: threads that build, read and delete dictionaries. *)
From Coq Require Import Permutation Relations.
From Verif Require Import Base Spec ModelHash ModelDawg SpecDawg SpecQuery HeapProofs BuildProofs2 DawgProofs QueryProofs QueryFacts IterProofs PropsDawg PropsQuery.
From Verif Require Import ModelSteps SpecSteps StepsAlone StepsProofs StepsSession StepsThreads.
Local Open Scope nat_scope.

(** ** Enough fuel for all *)
Lemma shared_readable hs shared dawgs : Forall2 (fun terms d => dictionary terms hs d) shared dawgs ->
  Forall2 (fun terms d => readable hs d terms) shared dawgs.
Proof.
  induction 1 as [|terms d shared dawgs D _ IH]; constructor; auto.
  destruct (dictionary_unf _ _ _ D) as (U & A & S). split; [exact S|]. split; [exact A|exact U].
Qed.

Lemma bounded {A} (f : A -> nat) l : exists n, forall x, In x l -> f x <= n.
Proof.
  induction l as [|x l [n H]]; [exists 0; intros x []|]. exists (Nat.max n (f x)).
  intros y [<-|I]; [lia|]. specialize (H y I). lia.
Qed.
Lemma enough_for shared : exists top, Forall (fun terms => 2 * weight terms <= top) shared.
Proof.
  destruct (bounded (fun terms => 2 * weight terms) shared) as [top H]. exists top.
  apply Forall_forall. exact H.
Qed.

(** ** C77: one thread, many dictionaries

    A program with a single thread has any number of dictionaries at once: it
    builds them at one go or term by term, in any interleaving, reads them and
    others that were there before, compares them, deletes them.

    Nothing of this is undefined, every command does what it does when its
    dictionary is the only one, nodes that were there before are not touched, and
    when all dictionaries are deleted exactly the nodes that were there before
    are left.  Where [new] puts the nodes does not matter. *)
Theorem C77_session : forall hs shared dawgs cs,
  Forall2 (fun terms d => dictionary terms hs d) shared dawgs -> sensible shared cs ->
  exists enough, forall fuel alloc, enough <= fuel -> allocator alloc ->
  exists h ss out stages, run_commands fuel alloc dawgs cs hs [] = Ok (h, (ss, out)) /\
    all_do shared cs [] stages out /\
    (forall a n, hget hs a = Some n -> hget h a = Some n) /\
    (tidy shared cs -> same_heap h hs).
Proof.
  intros hs shared dawgs cs HS (stages & out0 & D). apply shared_readable in HS.
  destruct (enough_for shared) as [top HF]. exists (top + cost cs + 6). intros fuel alloc Hf HA.
  destruct (session_ok (fuel := fuel) HA HS HF D) as (v & l & out & E & El & D' & H); [lia|].
  pose proof (split_alone E) as Ea. rewrite run_alone in Ea. cbn [app] in Ea.
  exists (v ++ hs), (map pl_slot l), out, stages. split; [exact Ea|]. split; [exact D'|]. split.
  - intros a n G. apply (sep_sub (h_sep H) G).
  - intros (st2 & out2 & D2 & G2). destruct (session_ok (fuel := fuel) HA HS HF D2) as (v2 & l2 & out2' & E2 & El2 & _ & H'); [lia|].
    rewrite E in E2. injection E2 as <- _ _. intros a. rewrite <- El2 in G2. pose proof (holds_gone H' G2 a) as N.
    rewrite hget_app. destruct (existsb (N.eqb a) (map fst v)) eqn:Ex; [|reflexivity].
    apply existsb_In in Ex. rewrite N. symmetry. exact (h_sep H Ex).
Qed.
Print Assumptions C77_session.

(** ** C77: many threads

    Any number of threads do this at the same time, each with dictionaries of its
    own and all of them reading the shared ones, without a lock.  They take turns
    after every single access to a node, in any order; [new] returns any free
    address.

    No thread ever runs into undefined behaviour or comes to a halt before its
    end.  There is never a data race.  The nodes that were there before are never
    changed.  Every command of a thread that is at its end has done what it does
    in a program with a single thread.  When all threads are at their end and have
    deleted their dictionaries, exactly the nodes that were there before are left. *)
Theorem C77_threads : forall hs shared dawgs programs,
  Forall2 (fun terms d => dictionary terms hs d) shared dawgs ->
  (forall cs, In cs programs -> sensible shared cs) ->
  exists enough, forall fuel, enough <= fuel ->
  forall w ts, turns (hs, map (fun cs => s_run fuel dawgs cs []) programs) (w, ts) ->
    (forall i p, nth_error ts i = Some p ->
       p <> Wrong /\ p <> Spent /\ ((exists r, p = Done r) \/ exists s, access p w s)) /\
    ~ data_race ts /\
    (forall a n, hget hs a = Some n -> hget w a = Some n) /\
    (forall i cs ss out, nth_error programs i = Some cs -> nth_error ts i = Some (Done (ss, out)) ->
       exists stages, all_do shared cs [] stages out) /\
    ((forall p, In p ts -> exists r, p = Done r) -> (forall cs, In cs programs -> tidy shared cs) -> same_heap w hs).
Proof.
  intros hs shared dawgs programs HS HP. apply shared_readable in HS.
  destruct (enough_for shared) as [top HF]. destruct (bounded cost programs) as [N2 H2].
  exists (top + N2 + 6). intros fuel Hf.
  set (ps := map (fun cs => s_run fuel dawgs cs []) programs).
  (* what a thread can become in its own memory *)
  assert (TH : forall cs q v stages out0, In cs programs -> all_do shared cs [] stages out0 ->
    lsteps hs (s_run fuel dawgs cs [], []) (q, v) ->
    q <> Wrong /\ q <> Spent /\ forall ss out, q = Done (ss, out) -> all_do shared cs [] stages out /\
      exists l, map pl_stage l = stages /\ holds fuel top hs v l 0).
  { intros cs q v stages out0 Hc D Hs. destruct (realised Hs) as (al & HA & E). cbn [fst snd] in E.
    destruct (session_ok (fuel := fuel) HA HS HF D) as (v' & l & out & E' & El & D' & H); [specialize (H2 cs Hc); lia|].
    rewrite E' in E. split; [intros ->; discriminate|]. split; [intros ->; discriminate|].
    intros ss out1 ->. cbn [split] in E. injection E as <- <- <-. split; [exact D'|]. eauto. }
  assert (HSafe : forall p, In p ps -> safe hs p).
  { intros p Hp q v Hs. unfold ps in Hp. apply in_map_iff in Hp. destruct Hp as (cs & <- & Hc).
    destruct (HP cs Hc) as (stages & out0 & D). destruct (TH cs q v stages out0 Hc D Hs) as (G1 & G2 & _). auto. }
  intros w ts Ht. destruct (turns_together HSafe Ht) as [l T]. cbn [fst snd] in T.
  pose proof T as (Eps & Ets & Ch & F).
  assert (Now : forall i p, nth_error ts i = Some p -> exists t, nth_error l i = Some t /\ t_now t = p).
  { intros i p Hp. rewrite <- Ets, nth_error_map in Hp. destruct (nth_error l i) as [t|]; [|discriminate].
    injection Hp as <-. eauto. }
  assert (Start : forall i t, nth_error l i = Some t -> exists cs, nth_error programs i = Some cs /\
    lsteps hs (s_run fuel dawgs cs [], []) (t_now t, t_mem t)).
  { intros i t Hi. assert (Hp : nth_error ps i = Some (t_start t)) by (rewrite <- Eps, nth_error_map, Hi; reflexivity).
    unfold ps in Hp. rewrite nth_error_map in Hp. destruct (nth_error programs i) as [cs|] eqn:Ec; [|discriminate].
    injection Hp as Hp. rewrite Forall_forall in Ch. specialize (Ch t (nth_error_In _ _ Hi)). rewrite <- Hp in Ch. eauto. }
  split; [|split; [|split; [|split]]].
  - intros i p Hp. destruct (Now i p Hp) as (t & Hi & <-).
    destruct (together_safe HSafe T (nth_error_In _ _ Hi)) as [[G1 G2] _]. split; [exact G1|]. split; [exact G2|].
    now apply can_go_on.
  - exact (no_race HSafe T).
  - apply (f_old F).
  - intros i cs ss out Hc Hr. destruct (Now i _ Hr) as (t & Hi & Et). destruct (Start i t Hi) as (cs' & Hc' & St).
    assert (cs' = cs) as -> by congruence. pose proof (nth_error_In _ _ Hc) as Ic.
    destruct (HP cs Ic) as (stages & out0 & D). destruct (TH cs _ _ stages out0 Ic D St) as (_ & _ & G).
    destruct (G ss out Et) as [G' _]. eauto.
  - intros HD HT.
    assert (Empty : forall i t, nth_error l i = Some t -> forall a, hget (t_mem t) a = None).
    { intros i t Hi. destruct (Start i t Hi) as (cs & Hc & St). pose proof (nth_error_In _ _ Hc) as Ic.
      destruct (HT cs Ic) as (stages & out0 & D & Gone). destruct (TH cs _ _ stages out0 Ic D St) as (_ & _ & G).
      destruct (HD (t_now t)) as [[ss out] Er]. { rewrite <- Ets. apply in_map. eapply nth_error_In; eauto. }
      destruct (G ss out Er) as (_ & l' & <- & H). exact (holds_gone H Gone). }
    intros a. destruct (hget w a) as [n|] eqn:G.
    + destruct (f_all F G) as [G'|(i & m & Hi & G')]; [auto|]. rewrite nth_error_map in Hi.
      destruct (nth_error l i) as [t|] eqn:Ei; [|discriminate]. injection Hi as <-. rewrite (Empty i t Ei a) in G'. discriminate.
    + destruct (hget hs a) eqn:G'; [|reflexivity]. apply (f_old F) in G'. congruence.
Qed.
Print Assumptions C77_threads.

(** What a thread does when it runs alone is what the functions of ModelDawg do,
    also when something goes wrong. *)
Theorem C77_alone : forall alloc fuel dawgs cs ss h,
  alone alloc (s_run fuel dawgs cs ss) h = run_commands fuel alloc dawgs cs h ss.
Proof. intros. apply run_alone. Qed.
Print Assumptions C77_alone.

(** No schedule lets the threads run for ever. *)
Theorem C77_terminates : forall A (f : nat -> heap * list (action A)), ~ (forall i, turn (f i) (f (S i))).
Proof.
  intros A f H.
  assert (G : forall ts, Acc (@smaller_in A) ts -> forall i, snd (f i) = ts -> False).
  { intros ts Ac. induction Ac as [ts _ IH]. intros i E. apply (IH (snd (f (S i)))) with (i := S i); [|reflexivity].
    rewrite <- E. specialize (H i). destruct H as [w before p after p' w' Ha].
    cbn [snd]. constructor. eapply access_smaller; eauto. }
  exact (G _ (smaller_in_wf (snd (f 0))) 0 eq_refl).
Qed.
Print Assumptions C77_terminates.

(** ** A schedule, to see an example *)
Definition next_access {A} (p : action A) (w : heap) : action A * heap :=
  match p with
  | Done _ | Wrong | Spent => (p, w)
  | Look a k => match there w a with Some n => (k n, w) | None => (Wrong, w) end
  | Store a n k => match there w a with Some _ => (k, hset w a n) | None => (Wrong, w) end
  | Make n k => (k (bump w), hset w (bump w) n)
  | Drop a k => match there w a with Some _ => (k, hdel w a) | None => (Wrong, w) end
  end.
Definition at_end {A} (p : action A) : bool := match p with Done _ | Wrong | Spent => true | _ => false end.

Fixpoint play {A} (schedule : list nat) (s : heap * list (action A)) : heap * list (action A) :=
  match schedule with
  | [] => s
  | i :: schedule' =>
      match nth_error (snd s) i with
      | Some p =>
          if at_end p then play schedule' s
          else let (p', w') := next_access p (fst s) in
               play schedule' (w', firstn i (snd s) ++ p' :: skipn (S i) (snd s))
      | None => play schedule' s
      end
  end.

Lemma turns_first {A} (s s' s'' : heap * list (action A)) : turn s s' -> turns s' s'' -> turns s s''.
Proof. intros H1 H2. induction H2; [eapply more_turns; [apply no_turn|exact H1]|]. eapply more_turns; eauto. Qed.

Lemma play_turns {A} schedule : forall s : heap * list (action A), turns s (play schedule s).
Proof.
  induction schedule as [|i schedule IH]; intros [w ts]; [apply no_turn|]. cbn [play fst snd].
  destruct (nth_error ts i) as [p|] eqn:Ei; [|apply IH]. destruct (at_end p) eqn:Ee; [apply IH|].
  destruct (next_access p w) as [p' w'] eqn:En. eapply turns_first; [|apply IH].
  destruct (nth_error_split _ _ Ei) as (l1 & l2 & -> & <-).
  replace (firstn (length l1) (l1 ++ p :: l2)) with l1 by (rewrite firstn_app, Nat.sub_diag, firstn_all; cbn; now rewrite app_nil_r).
  replace (skipn (S (length l1)) (l1 ++ p :: l2)) with l2.
  2:{ rewrite skipn_app, skipn_all2 by lia. now replace (S (length l1) - length l1) with 1 by lia. }
  constructor. rewrite <- En. destruct p as [x| | |a k|a n k|n k|a k]; try discriminate; cbn [next_access].
  - destruct (there w a) eqn:T; econstructor; eauto.
  - destruct (there w a) eqn:T; econstructor; eauto.
  - destruct (bump_allocator w). now constructor.
  - destruct (there w a) eqn:T; econstructor; eauto.
Qed.

(** Two threads beside the dictionary {a, ab, cab, cb}.  One builds {a, cb} at one
    go, compares it with the shared dictionary, copies the shared dictionary and
    queries both, and deletes its own; the other builds two dictionaries term by
    term at the same time. *)
Definition one_thread : list command :=
  [Build [sa; scb]; Contains (Shared 0) sab; Equal (Own 0) (Shared 0); List (Own 0);
   Search STANDARD (Own 0) cat 2; Delete 0; Copy (Shared 0); Equal (Own 1) (Shared 0);
   Search TRANSPOSITION (Own 1) cat 1; Delete 1].
Definition other_thread : list command :=
  [Begin; Begin; Add 0 scb; Add 1 sa; Add 0 sa; Add 1 scb; Finish 0; Finish 1; List (Own 0); Equal (Own 1) (Own 0);
   Contains (Own 1) scb; Delete 1; Delete 0].
Definition two_threads : list (action (slots * list answer)) :=
  map (fun cs => s_run 60 [example_dawg] cs []) [one_thread; other_thread].
Definition one_by_one (n : nat) : list nat := concat (repeat [0; 1] n).
Definition shown (p : action (slots * list answer)) : option (list answer) :=
  match p with Done (_, out) => Some out | _ => None end.

Ltac less := apply str_ltb_lex; vm_compute; reflexivity.
Ltac not_less := intros L; apply str_ltb_lex in L; vm_compute in L; discriminate.
Ltac next := eapply all_more.

Lemma does_scored shared d alg q n ss terms : terms_of shared ss d = Some terms -> within_limits terms q n ->
  does shared (Search alg d q n) ss ss (Found (scored alg terms q n)).
Proof.
  intros Hd Lm. eapply does_search; eauto.
  - rewrite scored_fst. apply StronglySorted_sorted_by, found_sorted.
  - intros w k. apply scored_In.
Qed.
Lemma cat_limits terms n : forallb (fun t => length t <=? 3) terms = true -> (n <= SIZE_MAX)%N -> within_limits terms cat n.
Proof.
  intros H Hn. split; [apply manageable_short; vm_compute; discriminate|]. split; [exact Hn|]. intros t I. rewrite forallb_forall in H.
  specialize (H t I). apply Nat.leb_le in H. lia.
Qed.

Lemma one_tidy : tidy [some_terms] one_thread.
Proof.
  eexists _, _. split.
  - next. { apply does_build. apply sorted_cons; [right; less|apply sorted_one]. }
    next. { eapply does_contains with (b := true); [reflexivity|discriminate|]. split; [intros _; vm_compute; auto|auto]. }
    next. { eapply does_equal with (b := false); [reflexivity|reflexivity|]. split; [discriminate|]. intros [H _].
            exfalso. destruct (H sab) as [_ X]. destruct X as [X|[X|[]]]; [vm_compute; auto|discriminate..]. }
    next. { eapply does_list with (out := [sa; scb]); [reflexivity|vm_compute; reflexivity|]. exists [sa; scb].
            split; [|split; [|split; [|reflexivity]]].
            - apply NoDup_cons; [intros [X|[]]; discriminate|]. apply NoDup_cons; [intros []|apply NoDup_nil].
            - reflexivity.
            - apply sorted_cons; [left; vm_compute; lia|apply sorted_one]. }
    next. { apply does_scored with (terms := [sa; scb]); [reflexivity|]. apply cat_limits; [reflexivity|discriminate]. }
    next. { eapply does_delete. reflexivity. }
    next. { eapply does_copy. reflexivity. }
    next. { eapply does_equal with (b := true); [reflexivity|reflexivity|]. split; [intros _|reflexivity].
            split; [intros w; reflexivity|reflexivity]. }
    next. { apply does_scored with (terms := some_terms); [reflexivity|]. apply cat_limits; [reflexivity|discriminate]. }
    next. { eapply does_delete. reflexivity. }
    apply all_none.
  - cbn. intros s [<-|[<-|[]]]; reflexivity.
Qed.
Lemma other_tidy : tidy [some_terms] other_thread.
Proof.
  eexists _, _. split.
  - next. { apply does_begin. }
    next. { apply does_begin. }
    next. { eapply does_add; [reflexivity|not_less]. }
    next. { eapply does_add; [reflexivity|not_less]. }
    next. { eapply does_reject; [reflexivity|less]. }
    next. { eapply does_add; [reflexivity|not_less]. }
    next. { eapply does_finish. reflexivity. }
    next. { eapply does_finish. reflexivity. }
    next. { eapply does_list with (out := [scb]); [reflexivity|vm_compute; reflexivity|]. exists [scb].
            split; [|split; [|split; [|reflexivity]]].
            - apply NoDup_cons; [intros []|apply NoDup_nil].
            - reflexivity.
            - apply sorted_one. }
    next. { eapply does_equal with (b := false); [reflexivity|reflexivity|]. split; [discriminate|]. intros [_ H].
            vm_compute in H. discriminate. }
    next. { eapply does_contains with (b := true); [reflexivity|discriminate|]. split; [intros _; vm_compute; auto|auto]. }
    next. { eapply does_delete. reflexivity. }
    next. { eapply does_delete. reflexivity. }
    apply all_none.
  - cbn. intros s [<-|[<-|[]]]; reflexivity.
Qed.

Example C77_case :
  Forall2 (fun terms d => dictionary terms example_heap d) [some_terms] [example_dawg] /\
  (forall cs, In cs [one_thread; other_thread] -> tidy [some_terms] cs) /\
  (exists w ts, turns (example_heap, two_threads) (w, ts) /\
     map shown ts = [None; None] /\ length (live w) = length (live example_heap) + 11) /\
  (exists w ts, turns (example_heap, two_threads) (w, ts) /\
     map shown ts = [Some [Answered true; Answered true; Answered false; Listed [sa; scb]; Found [(sa, 2%N); (scb, 2%N)]; Nothing;
                           Nothing; Answered true; Found [(scab, 1%N)]; Nothing];
                     Some [Nothing; Nothing; Answered true; Answered true; Answered false; Answered true; Nothing; Nothing;
                           Listed [scb]; Answered false; Answered true; Nothing; Nothing]] /\
     live w = live example_heap).
Proof.
  split. { constructor; [exact example_dictionary|constructor]. }
  split. { intros cs [<-|[<-|[]]]; [exact one_tidy|exact other_tidy]. }
  split.
  - exists (fst (play (one_by_one 20) (example_heap, two_threads))), (snd (play (one_by_one 20) (example_heap, two_threads))).
    split; [rewrite <- surjective_pairing; apply play_turns|]. vm_compute. auto.
  - exists (fst (play (one_by_one 300) (example_heap, two_threads))), (snd (play (one_by_one 300) (example_heap, two_threads))).
    split; [rewrite <- surjective_pairing; apply play_turns|]. vm_compute. auto.
Qed.

(** ** What needs a lock

    A dictionary that is still being built, or being deleted, must not be read by
    another thread: this is a data race.  Reading while it is deleted can also be
    undefined; reading while it is built can miss terms that have been added
    before the reading began. *)
Definition growing : heap * builder := Eval vm_compute in
  match under_construction 30 bump [] [sa; sab; scab] with Ok (_, h, b) => (h, b) | _ => ([], Builder (Dawg null 0%N) [] None) end.
Definition read_while_built : list (action bool) :=
  [let* _ := s_finish 30 (snd growing) in Done true; s_contains (b_dawg (snd growing)) scab].
Definition read_while_deleted : list (action bool) :=
  [let* _ := s_destroy 30 (snd growing) in Done true; s_contains (b_dawg (snd growing)) scab].

(** The addresses that a program modifies or accesses next. *)
Definition modified {A : Type} (p : action A) : option ptr :=
  match p with Store a _ _ | Drop a _ => Some a | _ => None end.
Definition accessed {A : Type} (p : action A) : option ptr :=
  match p with Look a _ | Store a _ _ | Drop a _ => Some a | _ => None end.
Lemma races : forall (A : Type) (ts : list (action A)) i j a, i <> j ->
  option_map modified (nth_error ts i) = Some (Some a) -> option_map accessed (nth_error ts j) = Some (Some a) -> data_race ts.
Proof.
  intros A ts i j a Hij M R. destruct (nth_error ts i) as [p|] eqn:Ei; [|discriminate]. destruct (nth_error ts j) as [q|] eqn:Ej; [|discriminate].
  exists i, j, p, q, a. split; [exact Hij|]. split; [exact Ei|]. split; [exact Ej|].
  cbn in M, R. split.
  - destruct p; try discriminate; injection M as ->; constructor.
  - destruct q; try discriminate; injection R as ->; constructor.
Qed.

Theorem C77_read_while_built_refuted :
  under_construction 30 bump [] [sa; sab; scab] = Ok ([true; true; true], fst growing, snd growing) /\
  (exists w ts, turns (fst growing, read_while_built) (w, ts) /\ data_race ts) /\
  (exists w ts, turns (fst growing, read_while_built) (w, ts) /\ nth_error ts 1 = Some (Done false)).
Proof.
  split; [vm_compute; reflexivity|]. split.
  - exists (fst (play (repeat 0 16) (fst growing, read_while_built))), (snd (play (repeat 0 16) (fst growing, read_while_built))).
    split; [rewrite <- surjective_pairing; apply play_turns|].
    apply races with (i := 0) (j := 1) (a := d_root (b_dawg (snd growing))); [discriminate|vm_compute; reflexivity|vm_compute; reflexivity].
  - exists (fst (play (repeat 1 10) (fst growing, read_while_built))), (snd (play (repeat 1 10) (fst growing, read_while_built))).
    split; [rewrite <- surjective_pairing; apply play_turns|]. vm_compute. auto.
Qed.
Print Assumptions C77_read_while_built_refuted.

Theorem C77_read_while_deleted_refuted :
  (exists w ts, turns (fst growing, read_while_deleted) (w, ts) /\ data_race ts) /\
  (exists w ts, turns (fst growing, read_while_deleted) (w, ts) /\ In Wrong ts).
Proof.
  split.
  - exists (fst (play (repeat 0 9) (fst growing, read_while_deleted))), (snd (play (repeat 0 9) (fst growing, read_while_deleted))).
    split; [rewrite <- surjective_pairing; apply play_turns|].
    apply races with (i := 0) (j := 1) (a := d_root (b_dawg (snd growing))); [discriminate|vm_compute; reflexivity|vm_compute; reflexivity].
  - exists (fst (play (repeat 0 10 ++ [1]) (fst growing, read_while_deleted))),
      (snd (play (repeat 0 10 ++ [1]) (fst growing, read_while_deleted))).
    split; [rewrite <- surjective_pairing; apply play_turns|]. vm_compute. auto.
Qed.
Print Assumptions C77_read_while_deleted_refuted.
