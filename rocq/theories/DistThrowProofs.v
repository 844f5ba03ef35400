(** * DistThrowProofs: exceptions in threads that share a distance function. *)
From Verif Require Import Base Spec ModelDistance ModelThreads SpecDistance SpecThreads AlignProofs DistProofs DistFacts ThreadProofs
  ModelDistThrow SpecDistThrow.

(** A client as a thread of ModelThreads. *)
Definition view (c : client) : thread nat :=
  match now c with Idle => Running (Ret 0) | Calling x => x | Unwinding => Stored (Ret 0) end.

Lemma next_view alg os cs : exists p, view (next_call alg os cs) = Running p.
Proof. destruct cs as [|[v w] cs]; cbn; eauto. Qed.

(** One step keeps the invariant of the lock. *)
Lemma client_inv alg e s x s' x' pre post :
  lock_inv s (map view (pre ++ x :: post)) -> client_step alg e s x s' x' ->
  lock_inv s' (map view (pre ++ x' :: post)).
Proof.
  rewrite !map_app. cbn [map]. generalize (map view pre) as vp, (map view post) as vq. intros vp vq I S.
  assert (Z : forall s y y', lock_inv s (vp ++ y :: vq) -> reading y' = reading y -> writing y' = writing y -> halfway y' = halfway y ->
    (unseen (table s) y') -> lock_inv s (vp ++ y' :: vq)).
  { intros s0 y y' [R W O C U] E1 E2 E3 Uy. constructor; rewrite ?cnt_at in *; rewrite ?E1, ?E2, ?E3; auto.
    intros z J. apply in_app_iff in J. destruct J as [J|[<-|J]]; auto; apply U; apply in_app_iff; cbn; auto. }
  destruct S as [s x s' x' os cs L|s d os cs|s p os cs N|r w t ch k i c os cs|s k d c os cs|r w t ch k d c os cs|r w t ch os cs]; cbn [view now] in *.
  - eapply lock_sim; eauto.
  - destruct (next_view alg (os ++ [Some d]) cs) as (p & ->). eapply Z; eauto. exact Logic.I.
  - destruct (next_view alg (os ++ [None]) cs) as (q & ->). eapply Z; eauto. exact Logic.I.
  - destruct (next_view alg (os ++ [None]) cs) as (q & ->).
    assert (I1 : lock_inv (Shared r w t ch) (vp ++ Found None (fun _ => q) :: vq)) by (eapply Z; eauto; exact Logic.I).
    apply (lock_sim _ _ _ _ _ _ I1 (step_unlock_shared r w t ch None (fun _ => q))).
  - eapply Z; eauto. exact Logic.I.
  - destruct I as [R W O C U]. cbn [readers writer table changing] in *. rewrite cnt_at in R, W, C. cbn [reading writing halfway] in *.
    assert (Hw : cnt halfway vp <= cnt writing vp /\ cnt halfway vq <= cnt writing vq) by (split; apply halfway_writing).
    destruct w; [|lia]. constructor; cbn [readers writer table changing]; rewrite ?cnt_at; cbn [reading writing halfway]; auto; try lia.
    intros z J. apply in_app_iff in J. destruct J as [J|[<-|J]]; try exact Logic.I; apply U; apply in_app_iff; cbn; auto.
  - destruct (next_view alg (os ++ [None]) cs) as (q & ->).
    assert (I1 : lock_inv (Shared r w t ch) (vp ++ Stored q :: vq)) by (eapply Z; eauto; exact Logic.I).
    apply (lock_sim _ _ _ _ _ _ I1 (step_unlock r w t ch q)).
Qed.

(** ** What a client has done and may still do *)
Definition bound_of (vw : str * str) : nat := action_bound (S (length (fst vw) + length (snd vw))).
Definition todo_bound (cs : list (str * str)) : nat := list_sum (map bound_of cs).

Inductive client_good (alg : algorithm) : list (str * str) -> nat -> client -> Prop :=
| cg_idle : forall cs os, Forall2 (right_or_thrown alg) cs os -> client_good alg cs 0 (Client os Idle [])
| cg_calling : forall done os vw x cs n, Forall2 (right_or_thrown alg) done os ->
    good alg (fun d => d = dst alg (fst vw) (snd vw)) n (in_one_instant x) ->
    client_good alg (done ++ vw :: cs) (n + todo_bound cs) (Client os (Calling x) cs)
| cg_unwinding : forall done os vw cs, Forall2 (right_or_thrown alg) done os ->
    client_good alg (done ++ vw :: cs) (todo_bound cs) (Client os Unwinding cs).

Lemma next_good alg done os cs : Forall2 (right_or_thrown alg) done os ->
  client_good alg (done ++ cs) (todo_bound cs) (next_call alg os cs).
Proof.
  intros F. destruct cs as [|[v w] cs]; cbn [next_call].
  - rewrite app_nil_r. now constructor.
  - change (todo_bound ((v, w) :: cs)) with (bound_of (v, w) + todo_bound cs). constructor; auto.
    apply between_good.
Qed.

(** The remaining steps, if the table has at most [L] entries. *)
Definition todo_cost (L : nat) (cs : list (str * str)) : nat := length cs * (L + 7).
Definition steps_left (L n : nat) (c : client) : nat :=
  n * (L + 5) +
  match now c with
  | Idle => 0
  | Calling x => extra L x + 1 + todo_cost L (todo c)
  | Unwinding => 2 + todo_cost L (todo c)
  end.

Lemma next_left L n alg os cs : steps_left L n (next_call alg os cs) <= n * (L + 5) + todo_cost L cs.
Proof.
  destruct cs as [|[v w] cs]; unfold steps_left; cbn [next_call now todo]; [lia|].
  unfold todo_cost. cbn [length extra]. pose proof (waiting_le L (between alg v w)). lia.
Qed.

Lemma right_now alg done os vw o : Forall2 (right_or_thrown alg) done os -> right_or_thrown alg vw o ->
  Forall2 (right_or_thrown alg) (done ++ [vw]) (os ++ [o]).
Proof. intros F R. apply Forall2_app; auto. Qed.

Lemma client_good_step alg e s x s' x' pre post cs n :
  lock_inv s (map view (pre ++ x :: post)) -> memo_ok alg (table s) -> client_good alg cs n x -> client_step alg e s x s' x' ->
  memo_ok alg (table s') /\ exists n', client_good alg cs n' x' /\
    length (table s') + n' <= length (table s) + n /\
    forall L, length (table s) <= L -> steps_left L n' x' < steps_left L n x.
Proof.
  intros I M G S.
  destruct S as [s x s' x' os td L|s d os td|s p os td N|r w t ch k i c os td|s k d c os td|r w t ch k d c os td|r w t ch os td];
    inversion G as [cs0 os0 F0|done os0 vw y td0 n0 F Gd|done os0 vw td0 F]; subst; cbn [table] in *.
  - rewrite map_app in I. cbn [map view now] in I. destruct (lock_sim _ _ _ _ _ _ I L) as [_ [(Et & Ex & Le)|(St & Lt & Le)]].
    + rewrite Et. split; auto. exists (n0 + todo_bound td). split; [constructor; auto; now rewrite Ex|]. split; [lia|].
      intros K HK. unfold steps_left. cbn [now todo]. specialize (Le K HK). lia.
    + destruct (good_step _ _ _ _ _ _ _ Gd M St) as (M' & n1 & -> & G1). split; auto.
      exists (n1 + todo_bound td). split; [now constructor|]. split; [lia|].
      intros K HK. unfold steps_left. cbn [now todo]. specialize (Le K). nia.
  - split; auto. exists (todo_bound td). replace (done ++ vw :: td) with ((done ++ [vw]) ++ td) by (rewrite <- app_assoc; reflexivity).
    cbn [in_one_instant] in Gd. inversion Gd; subst. split; [apply next_good, right_now; auto; apply dst_edit_distance|].
    split; [lia|]. intros K HK. pose proof (next_left K (todo_bound td) alg (os ++ [Some (dst alg (fst vw) (snd vw))]) td).
    unfold steps_left in *. cbn [now todo extra waiting_cost]. nia.
  - split; auto. exists (todo_bound td). replace (done ++ vw :: td) with ((done ++ [vw]) ++ td) by (rewrite <- app_assoc; reflexivity).
    split; [apply next_good, right_now; cbn; auto|]. split; [lia|].
    intros K HK. pose proof (next_left K (todo_bound td) alg (os ++ [None]) td).
    unfold steps_left in *. cbn [now todo extra]. nia.
  - split; auto. exists (todo_bound td). replace (done ++ vw :: td) with ((done ++ [vw]) ++ td) by (rewrite <- app_assoc; reflexivity).
    split; [apply next_good, right_now; cbn; auto|]. split; [lia|].
    intros K HK. pose proof (next_left K (todo_bound td) alg (os ++ [None]) td).
    unfold steps_left in *. cbn [now todo extra]. nia.
  - split; auto. exists (todo_bound td). split; [now constructor|]. split; [lia|].
    intros K HK. unfold steps_left. cbn [now todo extra]. nia.
  - split; auto. exists (todo_bound td). split; [now constructor|]. split; [lia|].
    intros K HK. unfold steps_left. cbn [now todo extra]. nia.
  - split; auto. exists (todo_bound td). replace (done ++ vw :: td) with ((done ++ [vw]) ++ td) by (rewrite <- app_assoc; reflexivity).
    split; [apply next_good, right_now; cbn; auto|]. split; [lia|].
    intros K HK. pose proof (next_left K (todo_bound td) alg (os ++ [None]) td).
    unfold steps_left in *. cbn [now todo]. nia.
Qed.

(** ** The pool *)
Inductive clients_good (alg : algorithm) (L : nat) : nat -> nat -> list (list (str * str)) -> list client -> Prop :=
| csg_nil : clients_good alg L 0 0 [] []
| csg_cons : forall n N M cs c css xs, client_good alg cs n c -> clients_good alg L N M css xs ->
    clients_good alg L (n + N) (steps_left L n c + M) (cs :: css) (c :: xs).

Lemma clients_good_at alg L x post : forall pre N M css, clients_good alg L N M css (pre ++ x :: post) ->
  exists cs n, client_good alg cs n x /\ n <= N /\ steps_left L n x <= M /\
    forall n' x', client_good alg cs n' x' ->
      clients_good alg L (N - n + n') (M - steps_left L n x + steps_left L n' x') css (pre ++ x' :: post).
Proof.
  induction pre as [|y pre IH]; intros N M css G; cbn [app] in G; inversion G as [|n N0 M0 cs c css0 xs Gc Gs]; subst.
  - exists cs, n. split; auto. split; [lia|]. split; [lia|]. intros n' x' G'.
    replace (n + N0 - n + n') with (n' + N0) by lia.
    replace (steps_left L n x + M0 - steps_left L n x + steps_left L n' x') with (steps_left L n' x' + M0) by lia. now constructor.
  - destruct (IH _ _ _ Gs) as (cs1 & n1 & G1 & Ln & Lm & H). exists cs1, n1. split; auto. split; [lia|]. split; [lia|].
    intros n' x' G'. specialize (H n' x' G').
    replace (n + N0 - n1 + n') with (n + (N0 - n1 + n')) by lia.
    replace (steps_left L n y + M0 - steps_left L n1 x + steps_left L n' x')
      with (steps_left L n y + (M0 - steps_left L n1 x + steps_left L n' x')) by lia. now constructor.
Qed.

Lemma exceptions_next alg os o cs : exceptions (next_call alg (os ++ [o]) cs) =
  length (filter (fun o => match o with None => true | Some _ => false end) os) + (match o with None => 1 | _ => 0 end).
Proof.
  unfold exceptions. assert (E : outcomes (next_call alg (os ++ [o]) cs) = os ++ [o] /\ now (next_call alg (os ++ [o]) cs) <> Unwinding).
  { destruct cs as [|[v w] cs]; cbn; split; auto; discriminate. }
  destruct E as [-> E]. destruct (now _); [| |congruence]; rewrite filter_app, app_length; destruct o; cbn; lia.
Qed.

Lemma exceptions_step alg (e : bool) s x s' x' : client_step alg e s x s' x' ->
  exceptions x' = (if e then 1 else 0) + exceptions x.
Proof.
  intros S. destruct S; rewrite ?exceptions_next; unfold exceptions; cbn [outcomes now]; lia.
Qed.

Lemma clients_run alg L css : forall n k c c', clients_steps alg n k c c' -> forall N M,
  lock_inv (fst c) (map view (snd c)) -> memo_ok alg (table (fst c)) -> clients_good alg L N M css (snd c) ->
  length (table (fst c)) + N <= L ->
  lock_inv (fst c') (map view (snd c')) /\ memo_ok alg (table (fst c')) /\
  (exists N' M', clients_good alg L N' M' css (snd c') /\ n + M' <= M) /\
  list_sum (map exceptions (snd c')) = k + list_sum (map exceptions (snd c)).
Proof.
  induction 1 as [c|n k e c c1 c2 St _ IH]; intros N M I Mo G B.
  - split; auto. split; auto. split; [|lia]. exists N, M. split; auto.
  - destruct St as [e s s1 pre x x1 post Sl]. cbn [fst snd] in *.
    destruct (clients_good_at _ _ _ _ _ _ _ _ G) as (cs & m & Gx & Ln & Lm & H).
    destruct (client_good_step _ _ _ _ _ _ _ _ _ _ I Mo Gx Sl) as (Mo1 & m1 & G1 & Lt & Le).
    specialize (H _ _ G1). specialize (Le L ltac:(lia)).
    destruct (IH _ _ (client_inv _ _ _ _ _ _ _ _ I Sl) Mo1 H ltac:(lia)) as (I2 & Mo2 & (N2 & M2 & G2 & L2) & E2).
    split; auto. split; auto. split; [exists N2, M2; split; auto; lia|].
    rewrite E2, !map_app, !list_sum_app. cbn [map]. change (list_sum (exceptions x1 :: map exceptions post)) with (exceptions x1 + list_sum (map exceptions post)).
    change (list_sum (exceptions x :: map exceptions post)) with (exceptions x + list_sum (map exceptions post)).
    rewrite (exceptions_step _ _ _ _ _ _ Sl). destruct e; lia.
Qed.

Lemma clients_start_good alg L css : exists M,
  clients_good alg L (list_sum (map todo_bound css)) M css (map (next_call alg []) css).
Proof.
  induction css as [|cs css (M & IH)]; [exists 0; constructor|]. eexists. cbn [map].
  change (list_sum (todo_bound cs :: map todo_bound css)) with (todo_bound cs + list_sum (map todo_bound css)).
  constructor; [|exact IH]. apply (next_good alg [] []). constructor.
Qed.

Lemma clients_start_inv alg css : lock_inv (Shared 0 false [] false) (map view (map (next_call alg []) css)).
Proof.
  assert (Z : forall f : thread nat -> bool, (forall p, f (Running p) = false) -> cnt f (map view (map (next_call alg []) css)) = 0).
  { intros f F. unfold cnt. induction css as [|cs css IH]; auto. cbn [map filter].
    destruct (next_view alg [] cs) as (p & ->). rewrite F. auto. }
  constructor; cbn [readers writer table changing]; try (rewrite Z; auto; fail); try discriminate.
  intros x H. apply in_map_iff in H. destruct H as (c & <- & H). apply in_map_iff in H. destruct H as (cs & <- & _).
  destruct (next_view alg [] cs) as (p & ->). exact I.
Qed.

Lemma clients_no_race s xs : lock_inv s (map view xs) -> ~ clients_race xs.
Proof.
  intros I (i & j & x & y & D & Nx & Ny & Wx & Ay). apply (inv_no_race _ _ I). exists i, j, (view x), (view y).
  rewrite !nth_error_map, Nx, Ny. split; auto. split; auto. split; auto.
  unfold client_writes, client_accesses, view in *. destruct (now x), (now y); try contradiction. auto.
Qed.

Lemma client_holder_goes alg s c : client_holds_lock c -> client_goes_on alg s c.
Proof.
  destruct c as [os a cs]. unfold client_holds_lock, client_goes_on. cbn [now]. destruct a as [|x|]; [contradiction| |].
  - intros H. destruct (holder_steps s x H) as (s' & x' & S). do 2 eexists. constructor. exact S.
  - intros _. destruct s. do 2 eexists. constructor.
Qed.

Lemma clients_good_nth alg L : forall N M css xs, clients_good alg L N M css xs ->
  length xs = length css /\
  forall i cs, nth_error css i = Some cs -> exists x n, nth_error xs i = Some x /\ client_good alg cs n x.
Proof.
  induction 1 as [|n N M cs c css xs Gc _ [IL IH]]; cbn; [split; auto; intros [|i]; discriminate|].
  split; auto. intros [|i] cs' H; cbn in *; [injection H as <-; eauto|auto].
Qed.
