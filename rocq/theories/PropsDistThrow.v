(** * PropsDistThrow: distance functions when memory runs out (C73). *)
From Verif Require Import Base Spec ModelDistance ModelThreads SpecDistance SpecThreads AlignProofs DistProofs DistFacts ThreadProofs
  ModelDistThrow SpecDistThrow DistThrowProofs.

(** Any number of threads share a distance function and make any calls, in any
    interleaving; any allocation may throw, [k] of them do; the threads catch the
    exceptions.  No data race, no deadlock, an end; exactly [k] calls are lost,
    and all the others return the right distances. *)
Theorem C73_out_of_memory : forall alg css, exists bound, forall n k s xs,
  clients_steps alg n k (clients_start alg css) (s, xs) ->
  n <= bound /\ ~ clients_race xs /\ length xs = length css /\ list_sum (map exceptions xs) = k /\
  (forall x, In x xs -> client_holds_lock x -> client_goes_on alg s x) /\
  forall i cs, nth_error css i = Some cs -> exists x, nth_error xs i = Some x /\
    Forall2 (right_or_thrown alg) (firstn (length (outcomes x)) cs) (outcomes x) /\
    (now x = Idle /\ length (outcomes x) = length cs \/ client_goes_on alg s x \/
     exists y, In y xs /\ client_holds_lock y).
Proof.
  intros alg css. set (L := list_sum (map todo_bound css)). destruct (clients_start_good alg L css) as (M & G0).
  exists M. intros n k s xs S.
  destruct (clients_run alg L css _ _ _ _ S _ _ (clients_start_inv alg css) (memo_ok_nil alg) G0) as (I & Mo & (N' & M' & G & B) & E).
  { cbn. unfold L. lia. }
  cbn [fst snd clients_start] in *. destruct (clients_good_nth _ _ _ _ _ _ G) as [Len Nth].
  split; [lia|]. split; [eapply clients_no_race; eauto|]. split; [auto|]. split.
  { rewrite E. assert (Z : list_sum (map exceptions (map (next_call alg []) css)) = 0); [|lia].
    clear. induction css as [|[|[v w] cs] css IH]; cbn in *; auto. }
  split; [intros; now apply client_holder_goes|].
  intros i cs Ni. destruct (Nth i cs Ni) as (x & m & Nx & Gx). exists x. split; auto.
  assert (F : forall done rest os, Forall2 (right_or_thrown alg) done os ->
    Forall2 (right_or_thrown alg) (firstn (length os) (done ++ rest)) os).
  { intros done rest os F. assert (length done = length os) as <- by (clear -F; induction F; cbn; auto).
    rewrite firstn_app, Nat.sub_diag, firstn_all. cbn. now rewrite app_nil_r. }
  destruct Gx as [cs0 os F0|done os vw x cs0 n0 F0 Gd|done os vw cs0 F0]; cbn [outcomes now].
  - split; [rewrite <- (app_nil_r cs0); now apply F|]. left. split; auto. clear -F0. induction F0; cbn; auto.
  - split; [now apply F|]. right.
    assert (D : (exists y, In y xs /\ client_holds_lock y) \/ forall y, In y (map view xs) -> ~ has_lock y).
    { clear. induction xs as [|[os [|x|] cs] xs [(y & I & H)|H]]; try (left; exists y; cbn; auto; fail).
      - right. intros y [].
      - right. intros y [<-|J]; auto.
      - destruct x; try (left; eexists; split; [left; reflexivity|exact I]; fail). right. intros y [<-|J]; auto.
      - left. eexists. split; [left; reflexivity|exact I]. }
    destruct D as [D|D]; [auto|]. left. unfold client_goes_on.
    assert (Hx : ~ has_lock x).
    { apply D. apply in_map_iff. exists (Client os (Calling x) cs0). split; auto. eapply nth_error_In; eauto. }
    destruct x as [p|k0 j c|o c|k0 d c|k0 d c|c]; try (exfalso; apply Hx; exact Logic.I). cbn [in_one_instant] in Gd.
    destruct (good_progress _ _ _ _ (table s) Gd) as [(d & -> & _)|St].
    + do 2 eexists. apply client_returns.
    + destruct (free_steps _ _ _ I D St) as (s' & x' & L'). do 2 eexists. apply client_runs. exact L'.
  - split; [now apply F|]. right. left. apply client_holder_goes. exact Logic.I.
Qed.
Print Assumptions C73_out_of_memory.

(** If nothing is thrown, a thread that has made all its calls has all the
    answers. *)
Theorem C73_no_exception : forall alg css n s xs i x cs,
  clients_steps alg n 0 (clients_start alg css) (s, xs) -> nth_error css i = Some cs -> nth_error xs i = Some x ->
  now x = Idle -> exists ds, outcomes x = map Some ds /\ Forall2 (correct alg) cs ds.
Proof.
  intros alg css n s xs i x cs S Nc Nx Id. destruct (C73_out_of_memory alg css) as (B & H).
  destruct (H _ _ _ _ S) as (_ & _ & _ & E & _ & R). destruct (R i cs Nc) as (y & Ny & F & D).
  rewrite Nx in Ny. injection Ny as <-.
  assert (Len : length (outcomes x) = length cs).
  { destruct (clients_start_good alg (list_sum (map todo_bound css)) css) as (M & G0).
    destruct (clients_run alg _ css _ _ _ _ S _ _ (clients_start_inv alg css) (memo_ok_nil alg) G0) as (_ & _ & (N' & M' & G & _) & _); [cbn; lia|].
    destruct (clients_good_nth _ _ _ _ _ _ G) as [_ Nth]. destruct (Nth i cs Nc) as (z & m & Nz & Gz). cbn [snd] in Nz.
    rewrite Nx in Nz. injection Nz as <-. destruct Gz; cbn in Id; try discriminate. cbn. clear -H0. induction H0; cbn; auto. }
  rewrite Len, firstn_all in F.
  assert (Z : exceptions x = 0).
  { clear -E Nx. revert i Nx. induction xs as [|y xs IH]; intros [|i] Nx; try discriminate; cbn [map] in E;
      change (exceptions y + list_sum (map exceptions xs) = 0) in E; cbn in Nx.
    - injection Nx as ->. lia.
    - apply (IH ltac:(lia) i Nx). }
  unfold exceptions in Z. assert (Z' : length (filter (fun o : option nat => match o with None => true | Some _ => false end) (outcomes x)) = 0) by lia.
  clear -F Z'. induction F as [|vw [d|] cs os R F IH]; cbn in *; [exists []; auto| |discriminate].
  destruct (IH Z') as (ds & -> & Fd). exists (d :: ds). auto.
Qed.
Print Assumptions C73_no_exception.

(** Thread 1 throws while it inserts; thread 2 waits for the lock and gets its
    answer. *)
Lemma clients_quiet alg n k c c' c'' : clients_step alg false c c' -> clients_steps alg n k c' c'' -> clients_steps alg (S n) k c c''.
Proof. apply (clients_more alg n k false). Qed.
Lemma clients_loud alg n k c c' c'' : clients_step alg true c c' -> clients_steps alg n k c' c'' -> clients_steps alg (S n) (S k) c c''.
Proof. apply (clients_more alg n k true). Qed.

Example C73_case : exists n s,
  clients_steps STANDARD n 1 (clients_start STANDARD [[([], lit "a")]; [(lit "a", [])]])
    (s, [Client [None] Idle []; Client [Some 1] Idle []]) /\ table s = [(([], lit "a"), 1)].
Proof.
  Ltac fst_goes := eapply clients_quiet; [eapply (clients_step_at _ _ _ _ [])|].
  Ltac snd_goes := eapply clients_quiet; [eapply (clients_step_at _ _ _ _ [_])|].
  do 2 eexists. split.
  - unfold clients_start. cbn.
    fst_goes; [apply client_runs, step_lock_shared|]. fst_goes; [apply client_runs, step_look|].
    fst_goes; [apply client_runs, step_unlock_shared|]. fst_goes; [apply client_runs, step_lock|].
    fst_goes; [apply client_runs, step_begin_store|].
    eapply clients_loud; [eapply (clients_step_at _ _ _ _ []), client_throws_insert|]. fst_goes; [apply client_unlocks|]. cbn.
    snd_goes; [apply client_runs, step_lock_shared|]. snd_goes; [apply client_runs, step_look|].
    snd_goes; [apply client_runs, step_unlock_shared|]. snd_goes; [apply client_runs, step_lock|].
    snd_goes; [apply client_runs, step_begin_store|]. snd_goes; [apply client_runs, step_end_store|].
    snd_goes; [apply client_runs, step_unlock|]. snd_goes; [apply client_returns|]. cbn. apply clients_done.
  - reflexivity.
Qed.
