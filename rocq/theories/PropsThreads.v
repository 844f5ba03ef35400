(** * Properties C62, C63: the lock around the memo, and the cost of distances. *)
From Verif Require Import Base Spec ModelDistance ModelThreads SpecDistance SpecThreads DistProofs DistFacts ThreadProofs CostProofs.

(** ** C62: any number of threads making any calls on one shared object, in any
    interleaving of the steps of get and set: there is no data race, no deadlock
    and an end, and the threads return the right answers. *)
Theorem C62_lock : forall alg css, exists bound, forall n s xs, threads_steps n (started alg css) (s, xs) ->
  n <= bound /\ ~ data_race xs /\ length xs = length css /\
  (forall x, In x xs -> has_lock x -> can_step s x) /\
  forall i cs, nth_error css i = Some cs -> exists x, nth_error xs i = Some x /\
    ((exists ds, x = Running (Ret ds) /\ Forall2 (correct alg) cs ds) \/
     can_step s x \/ exists y, In y xs /\ has_lock y).
Proof.
  intros alg css. destruct (threads_correct alg css) as (B & T). exists B. intros n s xs S.
  destruct (T _ _ _ S) as (Ln & I & j & P). split; auto. split; [eapply inv_no_race; eauto|].
  destruct (pool_correct alg css) as (B' & C). destruct (C _ _ _ P) as (_ & Len & Q). rewrite map_length in Len.
  split; auto. split; [intros; apply holder_steps; auto|].
  intros i cs N. destruct (Q i cs N) as (p & Np & R). rewrite nth_error_map in Np.
  destruct (nth_error xs i) as [x|] eqn:Nx; [|discriminate]. injection Np as <-. exists x. split; auto.
  destruct x as [p|k j' c|o c|k d c|k d c|c]; try (right; left; apply holder_steps; exact Logic.I).
  cbn [in_one_instant] in R. destruct R as [(ds & -> & F)|R]; [left; eauto|].
  assert (D : (exists y, In y xs /\ has_lock y) \/ forall y, In y xs -> ~ has_lock y).
  { clear. induction xs as [|x xs [(y & I & H)|H]]; [right; intros y []|left; exists y; cbn; auto|].
    destruct x; [|left; eexists; split; [left; reflexivity|exact I]..].
    right. intros y [<-|I]; auto. }
  destruct D as [D|D]; [right; right; auto|]. right. left. eapply free_steps; eauto.
Qed.
Print Assumptions C62_lock.

(** Every execution is one in which get and set happen in one instant each, as
    C09 takes for granted. *)
Theorem C62_atomic : forall alg css n s xs, threads_steps n (started alg css) (s, xs) ->
  exists j, pool_steps j ([], map (calls alg) css) (table s, map in_one_instant xs).
Proof. intros alg css n s xs S. destruct (threads_correct alg css) as (B & T). destruct (T _ _ _ S) as (_ & _ & P). exact P. Qed.
Print Assumptions C62_atomic.

(** Two readers in the table at the same time, then a writer. *)
Example C62_case : exists s,
  threads_steps 14 (started STANDARD [[([], lit "a")]; [(lit "a", [])]]) (s, [Running (Ret [1]); Running (Ret [1])]) /\
  exists s' x y, threads_steps 2 (started STANDARD [[([], lit "a")]; [(lit "a", [])]]) (s', [x; y]) /\
    readers s' = 2 /\ has_lock x /\ has_lock y.
Proof.
  Ltac fst_steps t := eapply threads_more; [eapply (threads_step_at _ _ []); apply t|cbn].
  Ltac snd_steps t := eapply threads_more; [eapply (threads_step_at _ _ [_]); apply t|cbn].
  eexists. split.
  - unfold started. cbn.
    fst_steps @step_lock_shared. snd_steps @step_lock_shared. fst_steps @step_look. snd_steps @step_look.
    fst_steps @step_unlock_shared. snd_steps @step_unlock_shared.
    snd_steps @step_lock. snd_steps @step_begin_store. snd_steps @step_end_store. snd_steps @step_unlock.
    fst_steps @step_lock. fst_steps @step_begin_store. fst_steps @step_end_store. fst_steps @step_unlock.
    apply threads_done.
  - eexists _, _, _. split.
    + unfold started. cbn. fst_steps @step_lock_shared. snd_steps @step_lock_shared. apply threads_done.
    + cbn. auto.
Qed.

(** ** C63: the cost of a distance.  Whatever the other threads do and whatever
    was computed before, a thread enters the critical sections at most
    6(|v|+1)(|w|+1)+1 times for each of its calls between(v, w). *)
Theorem C63_accesses : forall alg css turns m ps, scheduled turns ([], map (calls alg) css) (m, ps) ->
  forall i cs, nth_error css i = Some cs ->
  turns_of i turns <= list_sum (map (fun vw => 6 * suffix_pairs vw + 1) cs).
Proof.
  intros alg css turns m ps S i cs N.
  destruct (pool_frugal_scheduled _ _ _ S _ _ (pool_frugal_start alg css)) as [F _]. cbn [fst snd] in F.
  assert (Z : nth_error (map (fun _ : list (str * str) => 0) css) i = Some 0) by (rewrite nth_error_map, N; auto).
  pose proof (pool_frugal_nth _ _ _ _ _ _ _ F N (turns_nth turns _ _ _ Z)). unfold cost in *. lia.
Qed.
Print Assumptions C63_accesses.

(** The memo never holds more than (|v|+1)(|w|+1) entries for each call made. *)
Theorem C63_memo : forall alg css turns m ps ks, scheduled turns ([], map (calls alg) css) (m, ps) ->
  NoDup ks -> (forall k, In k ks -> memo_get m k <> None) ->
  length ks <= list_sum (map suffix_pairs (concat css)).
Proof.
  intros alg css turns m ps ks S ND H.
  destruct (pool_frugal_scheduled _ _ _ S _ _ (pool_frugal_start alg css)) as [_ M]. cbn [fst snd] in M.
  etransitivity; [|apply entered_length]. apply NoDup_incl_length; auto. intros k I.
  destruct (M k (H k I)) as [X|(cs & Ic & Ik)]; [destruct X; auto|]. unfold entered in *. apply in_flat_map in Ik. destruct Ik as (vw & Iv & Ik).
  apply in_flat_map. exists vw. split; auto. apply in_concat. eauto.
Qed.
Print Assumptions C63_memo.

Example C63_case : exists m,
  scheduled [0; 1; 1; 0] ([], map (calls STANDARD) [[([], lit "a")]; [(lit "a", [])]]) (m, [Ret [1]; Ret [1]]).
Proof.
  eexists. cbn.
  eapply (scheduled_more _ _ _ []); [constructor|cbn]. eapply (scheduled_more _ _ _ [_]); [constructor|cbn].
  eapply (scheduled_more _ _ _ [_]); [constructor|cbn]. eapply (scheduled_more _ _ _ []); [constructor|cbn].
  constructor.
Qed.

(** The number of accesses of a single call, with an empty memo and with one that
    is never asked (as if get always failed). *)
Fixpoint accesses (n : nat) (memoized : bool) (p : prog nat) (m : memo) : nat :=
  match n, p with
  | S n', GetM k c => S (accesses n' memoized (c (if memoized then memo_get m k else None)) m)
  | S n', SetM k d c => S (accesses n' memoized c (memo_set m k d))
  | _, _ => 0
  end.
Example C63_case_memo : accesses (100 * 100) true (between STANDARD (lit "aaaaa") (lit "bbbbb")) [] = 112 /\
  accesses (100 * 100) false (between STANDARD (lit "aaaaa") (lit "bbbbb")) [] = 50 * 100 + 48.
Proof. split; vm_compute; reflexivity. Qed.
