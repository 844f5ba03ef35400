(** * ThreadProofs: steps under the lock refine atomic actions. *)
From Verif Require Import Base Spec ModelDistance ModelThreads SpecDistance SpecThreads DistProofs DistFacts.

Definition reading {A} (x : thread A) : bool := match x with Searching _ _ _ | Found _ _ => true | _ => false end.
Definition writing {A} (x : thread A) : bool := match x with Storing _ _ _ | Halfway _ _ _ | Stored _ => true | _ => false end.
Definition halfway {A} (x : thread A) : bool := match x with Halfway _ _ _ => true | _ => false end.
Definition cnt {A} (f : A -> bool) (l : list A) : nat := length (filter f l).

Lemma cnt_at {A} (f : A -> bool) pre x post : cnt f (pre ++ x :: post) = cnt f pre + cnt f post + (if f x then 1 else 0).
Proof. unfold cnt. rewrite filter_app, app_length. cbn. destruct (f x); cbn; lia. Qed.

(** The part of a search that is done has not met the key. *)
Definition unseen {A} (t : memo) (x : thread A) : Prop :=
  match x with Searching k i _ => memo_get (firstn i t) k = None | _ => True end.

Record lock_inv {A} (s : shared) (xs : list (thread A)) : Prop := {
  li_readers : readers s = cnt reading xs;
  li_writer : (if writer s then 1 else 0) = cnt writing xs;
  li_one : writer s = true -> readers s = 0;
  li_changing : (if changing s then 1 else 0) = cnt halfway xs;
  li_unseen : forall x, In x xs -> unseen (table s) x }.

Lemma memo_get_snoc t i k : memo_get (firstn i t) k = None ->
  match nth_error t i with
  | None => memo_get t k = None
  | Some (k', d) => if key_eqb k' k then memo_get t k = Some d else memo_get (firstn (S i) t) k = None
  end.
Proof.
  revert i. induction t as [|[k' d] t IH]; intros [|i] H; cbn; auto.
  - destruct (key_eqb k' k); auto.
  - cbn in H. destruct (key_eqb k' k); [discriminate|]. apply IH in H. exact H.
Qed.

Lemma halfway_writing {A} (xs : list (thread A)) : cnt halfway xs <= cnt writing xs.
Proof. unfold cnt. induction xs as [|[] xs IH]; cbn; lia. Qed.

Lemma unseen_others {A} (t t' : memo) (pre post : list (thread A)) x :
  (forall y, In y (pre ++ x :: post) -> unseen t y) -> (t = t' \/ cnt reading (pre ++ x :: post) = 0) ->
  forall y, In y (pre ++ post) -> unseen t' y.
Proof.
  intros H [->|Z] y I.
  - apply H. rewrite in_app_iff in *. cbn. tauto.
  - destruct y; cbn; auto. exfalso. rewrite cnt_at in Z. assert (cnt reading pre + cnt reading post = 0) by lia.
    assert (cnt reading (pre ++ post) = 0) by (unfold cnt in *; rewrite filter_app, app_length; auto).
    assert (In (Searching k i c) (filter reading (pre ++ post))) by (apply filter_In; auto).
    unfold cnt in *. destruct (filter reading (pre ++ post)); [contradiction|discriminate].
Qed.

(** How many steps may follow before the thread acts the next time. *)
Definition waiting_cost {A} (L : nat) (p : prog A) : nat := match p with Ret _ | Stuck => 0 | _ => L + 4 end.
Definition extra {A} (L : nat) (x : thread A) : nat :=
  match x with
  | Running p => waiting_cost L p
  | Searching _ i _ => L - i + 2
  | Found o c => 1 + waiting_cost L (c o)
  | Storing _ _ _ => 3
  | Halfway _ _ _ => 2
  | Stored c => 1 + waiting_cost L c
  end.
Definition extras {A} (L : nat) (xs : list (thread A)) : nat := list_sum (map (extra L) xs).

Lemma extras_at {A} L (pre : list (thread A)) x post : extras L (pre ++ x :: post) = extras L pre + extras L post + extra L x.
Proof. unfold extras. rewrite map_app, list_sum_app. cbn [map]. change (list_sum (extra L x :: map (extra L) post)) with (extra L x + list_sum (map (extra L) post)). lia. Qed.

Lemma waiting_le {A} L (p : prog A) : waiting_cost L p <= L + 4.
Proof. destruct p; cbn; lia. Qed.

Lemma extras_start alg css L : extras L (map (fun cs => Running (calls alg cs)) css) <= length css * (L + 4).
Proof.
  induction css as [|cs css IH]; [cbn; lia|]. cbn [map length].
  match goal with |- extras L (?x :: ?l) <= _ => change (x :: l) with ([] ++ x :: l) end.
  rewrite extras_at. cbn [extra]. pose proof (waiting_le L (calls alg cs)). change (@extras (list nat) L []) with 0. lia.
Qed.

(** One step: the invariant is kept, and it is an atomic action or nothing. *)
Lemma lock_sim {A} s x s' x' (pre post : list (thread A)) :
  lock_inv s (pre ++ x :: post) -> lock_step s x s' x' ->
  lock_inv s' (pre ++ x' :: post) /\
  (table s' = table s /\ in_one_instant x' = in_one_instant x /\ (forall L, length (table s) <= L -> extra L x' < extra L x) \/
   thread_step (table s) (in_one_instant x) (table s') (in_one_instant x') /\ length (table s') <= S (length (table s)) /\
   forall L, extra L x' < L + 5 + extra L x).
Proof.
  intros [R W O C U] S. pose proof (halfway_writing pre) as HW. pose proof (halfway_writing post) as HW'.
  assert (Ux : unseen (table s) x) by (apply U; rewrite in_app_iff; cbn; auto).
  assert (Uo : forall t', (table s = t' \/ cnt reading (pre ++ x :: post) = 0) -> unseen t' x' ->
     forall y, In y (pre ++ x' :: post) -> unseen t' y).
  { intros t' T Ux' y I. apply in_app_iff in I. destruct I as [I|[<-|I]]; auto;
    (eapply unseen_others; [exact U|exact T|apply in_app_iff; auto]). }
  rewrite cnt_at in R, W, C.
  destruct S; cbn [readers writer table changing reading writing halfway] in *.
  - split; [constructor; cbn [readers writer table changing]; rewrite ?cnt_at; cbn [reading writing halfway]; try lia; try discriminate; apply Uo; cbn; auto|left; cbn; split; [|split]; auto; intros; lia].
  - assert (X : unseen t (match nth_error t i with
       | None => Found None c
       | Some (k', d) => if key_eqb k' k then Found (Some d) c else Searching k (S i) c
       end) /\ (forall f : thread A -> bool, (f = reading \/ f = writing \/ f = halfway) ->
         f (match nth_error t i with
       | None => Found None c
       | Some (k', d) => if key_eqb k' k then Found (Some d) c else Searching k (S i) c
       end) = f (Searching k i c))).
    { pose proof (memo_get_snoc t i k Ux) as G. split.
      - destruct (nth_error t i) as [[k' d]|]; cbn; auto. destruct (key_eqb k' k); cbn; auto.
      - intros f F. destruct (nth_error t i) as [[k' d]|]; [destruct (key_eqb k' k)|]; destruct F as [->|[->| ->]]; auto. }
    destruct X as [X1 X2]. split.
    { constructor; cbn [readers writer table changing]; rewrite ?cnt_at, ?X2 by auto; cbn [reading writing halfway]; try lia; auto. }
    pose proof (memo_get_snoc t i k Ux) as G. destruct (nth_error t i) as [[k' d]|] eqn:N; [destruct (key_eqb k' k)|].
    + right. cbn [in_one_instant]. rewrite <- G. split; [constructor|]. split; [auto|].
      intros L. cbn [extra]. pose proof (waiting_le L (c (memo_get t k))). lia.
    + left. split; auto. split; auto. intros L HL. cbn [extra]. assert (i < length t) by (apply nth_error_Some; congruence). lia.
    + right. cbn [in_one_instant]. rewrite <- G. split; [constructor|]. split; [auto|].
      intros L. cbn [extra]. pose proof (waiting_le L (c (memo_get t k))). lia.
  - exfalso. destruct w; [specialize (O eq_refl)|]; cbv iota in *; lia.
  - split; [constructor; cbn [readers writer table changing]; rewrite ?cnt_at; cbn [reading writing halfway]; try lia;
      try (intros E; specialize (O E); lia); apply Uo; cbn; auto|left; cbn; split; [|split]; auto].
  - split; [constructor; cbn [readers writer table changing]; rewrite ?cnt_at; cbn [reading writing halfway]; try lia; apply Uo; cbn; auto|left; cbn; split; [|split]; auto; intros; lia].
  - split; [constructor; cbn [readers writer table changing]; rewrite ?cnt_at; cbn [reading writing halfway]; try lia; auto; apply Uo; cbn; auto|left; cbn; split; [|split]; auto].
  - exfalso. destruct w; cbv iota in *; lia.
  - assert (w = true) by (destruct w; auto; cbv iota in *; lia). subst. specialize (O eq_refl).
    split; [constructor; cbn [readers writer table changing]; rewrite ?cnt_at; cbn [reading writing halfway]; try lia; auto; try (destruct ch; cbv iota in *; lia);
      apply Uo; cbn; auto; right; rewrite cnt_at; cbn; lia|].
    right. cbn [in_one_instant]. split; [constructor|]. split; [cbn; lia|]. intros L. cbn [extra]. pose proof (waiting_le L c). lia.
  - assert (w = true) by (destruct w; auto; cbv iota in *; lia). subst.
    split; [constructor; cbn [readers writer table changing]; rewrite ?cnt_at; cbn [reading writing halfway]; try lia; try discriminate; apply Uo; cbn; auto|left; cbn; split; [|split]; auto].
Qed.

Lemma started_inv alg css : lock_inv (fst (started alg css)) (snd (started alg css)).
Proof.
  assert (Z : forall f : thread (list nat) -> bool, (forall p, f (Running p) = false) -> cnt f (map (fun cs => Running (calls alg cs)) css) = 0).
  { intros f F. unfold cnt. induction css as [|cs css IH]; auto. cbn [map filter]. rewrite F. auto. }
  constructor; cbn [started fst snd readers writer table changing]; try (rewrite Z; auto; fail); try discriminate.
  intros x H. apply in_map_iff in H. destruct H as (cs & <- & _). exact I.
Qed.

(** ** No races, no deadlock *)
Lemma cnt_pos {A} (f : A -> bool) l x i : nth_error l i = Some x -> f x = true -> 1 <= cnt f l.
Proof.
  intros N F. apply nth_error_In in N. assert (I : In x (filter f l)) by (apply filter_In; auto).
  unfold cnt. destruct (filter f l); [contradiction|cbn; lia].
Qed.

Lemma cnt_two {A} (f : A -> bool) l x y i j : i <> j -> nth_error l i = Some x -> nth_error l j = Some y ->
  f x = true -> f y = true -> 2 <= cnt f l.
Proof.
  unfold cnt. revert i j. induction l as [|z l IH]; intros i j D Nx Ny Fx Fy; [destruct i; discriminate|].
  destruct i as [|i], j as [|j]; try lia; cbn [nth_error] in *.
  - injection Nx as ->. cbn [filter]. rewrite Fx. cbn [length]. pose proof (cnt_pos f l y j Ny Fy). unfold cnt in *. lia.
  - injection Ny as ->. cbn [filter]. rewrite Fy. cbn [length]. pose proof (cnt_pos f l x i Nx Fx). unfold cnt in *. lia.
  - assert (2 <= length (filter f l)) by (apply (IH i j); auto). cbn [filter]. destruct (f z); cbn; lia.
Qed.

Lemma inv_no_race {A} s (xs : list (thread A)) : lock_inv s xs -> ~ data_race xs.
Proof.
  intros [R W O C U] (i & j & x & y & D & Nx & Ny & Wx & Ay).
  assert (Fx : writing x = true) by (destruct x; cbn in *; auto; contradiction).
  pose proof (cnt_pos _ _ _ _ Nx Fx) as P. destruct (writer s); [|lia]. specialize (O eq_refl).
  destruct y; cbn in Ay; try contradiction.
  - pose proof (cnt_pos reading _ _ _ Ny eq_refl). lia.
  - pose proof (cnt_two writing _ _ _ _ _ D Nx Ny Fx eq_refl). lia.
  - pose proof (cnt_two writing _ _ _ _ _ D Nx Ny Fx eq_refl). lia.
Qed.

Lemma holder_steps {A} s (x : thread A) : has_lock x -> can_step s x.
Proof.
  intros H. destruct s as [r w t ch], x; cbn in H; try contradiction.
  - destruct ch; eexists _, _; [apply (step_look_racing _ _ _ _ _ _ None)|apply step_look].
  - eexists _, _; constructor.
  - destruct ch; eexists _, _; [apply (step_begin_store_racing _ _ _ t)|apply step_begin_store].
  - eexists _, _; constructor.
  - eexists _, _; constructor.
Qed.

Lemma free_steps {A} s (xs : list (thread A)) (p : prog A) : lock_inv s xs -> (forall y, In y xs -> ~ has_lock y) ->
  (exists m' p', thread_step (table s) p m' p') -> can_step s (Running p).
Proof.
  intros [R W O C U] H (m' & p' & S).
  assert (Z : forall f : thread A -> bool, (forall p, f (Running p) = false) -> cnt f xs = 0).
  { intros f F. unfold cnt. clear -H F. induction xs as [|x xs IH]; auto. cbn [filter].
    assert (f x = false) as -> by (specialize (H x (or_introl eq_refl)); destruct x; cbn in H; tauto || apply F).
    apply IH. intros y I. apply H. right. auto. }
  rewrite Z in R, W by auto. destruct s as [r w t ch]. cbn [readers writer] in *. subst r. destruct w; [discriminate|].
  inversion S; subst; eexists _, _; constructor.
Qed.

(** ** Whole executions *)
Lemma threads_sim {A} n (c c' : shared * list (thread A)) : threads_steps n c c' -> lock_inv (fst c) (snd c) ->
  lock_inv (fst c') (snd c') /\
  exists j, pool_steps j (table (fst c), map in_one_instant (snd c)) (table (fst c'), map in_one_instant (snd c')) /\
    length (table (fst c')) <= length (table (fst c)) + j /\
    forall L, length (table (fst c)) + j <= L -> n + extras L (snd c') <= j * (L + 5) + extras L (snd c).
Proof.
  induction 1 as [c|n c c1 c2 St _ IH]; intros I.
  - split; auto. exists 0. split; [constructor|]. split; [lia|]. intros; lia.
  - destruct St as [s s1 pre x x1 post Sl]. cbn [fst snd] in *. destruct (lock_sim _ _ _ _ _ _ I Sl) as [I1 Q].
    destruct (IH I1) as (I2 & j & P & T & B). split; auto. destruct Q as [(Et & Ex & Le)|(St & Lt & Le)].
    + exists j. rewrite Et in *. rewrite map_app in *. cbn [map] in *. rewrite Ex in *. split; auto. split; auto.
      intros L HL. specialize (B L HL). specialize (Le L ltac:(lia)). rewrite extras_at in *. lia.
    + exists (S j). split.
      { eapply pool_more; [|exact P]. rewrite !map_app. cbn [map]. constructor. exact St. }
      split; [lia|]. intros L HL. specialize (B L ltac:(lia)). specialize (Le L). rewrite extras_at in *. lia.
Qed.

Lemma threads_correct alg css : exists B, forall n s xs, threads_steps n (started alg css) (s, xs) ->
  n <= B /\ lock_inv s xs /\ (exists j, pool_steps j ([], map (calls alg) css) (table s, map in_one_instant xs)).
Proof.
  destruct (pool_correct alg css) as (B & P). exists (B * (B + 5) + length css * (B + 4)). intros n s xs S.
  destruct (threads_sim _ _ _ S (started_inv alg css)) as (I & j & Ps & T & Bd). cbn [started fst snd table] in *.
  rewrite map_map in Ps. cbn [in_one_instant] in Ps. destruct (P _ _ _ Ps) as (Lj & _).
  split; [|eauto]. specialize (Bd B ltac:(cbn; lia)). pose proof (extras_start alg css B).
  assert (j * (B + 5) <= B * (B + 5)) by (apply Nat.mul_le_mono_r; auto). lia.
Qed.
