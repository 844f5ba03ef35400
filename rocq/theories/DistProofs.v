(** * [between] computes the least cost, for every memo content, history and
    schedule. *)
From Verif Require Import Base Spec ModelDistance AlignProofs.

(** ** Strings *)
Lemma str_compare_eq u v : str_compare u v = Eq <-> u = v.
Proof.
  revert v; induction u as [|a u IH]; intros [|b v]; simpl; try (split; [discriminate|congruence]); try tauto.
  destruct (N.compare_spec (uchar a) (uchar b)) as [E|E|E].
  - rewrite IH. split; [intros ->|intros H; injection H; auto].
    f_equal. unfold uchar in E. rewrite <- (ascii_N_embedding a), E. apply ascii_N_embedding.
  - split; [discriminate|]. intros H; injection H as -> ->. lia.
  - split; [discriminate|]. intros H; injection H as -> ->. lia.
Qed.

Lemma str_eqb_eq u v : str_eqb u v = true <-> u = v.
Proof. unfold str_eqb. rewrite <- str_compare_eq. destruct (str_compare u v); split; congruence. Qed.

Lemma key_eqb_eq k l : key_eqb k l = true <-> k = l.
Proof.
  unfold key_eqb. rewrite andb_true_iff, !str_eqb_eq. destruct k, l; simpl.
  split; [intros [-> ->]; auto|intros H; injection H; auto].
Qed.

Definition kdst (a : algorithm) (k : key) : nat := dst a (fst k) (snd k).

Lemma kdst_pair a v w : kdst a (symmetric_pair v w) = dst a v w.
Proof. unfold kdst, symmetric_pair; destruct (str_ltb v w); simpl; auto using dst_sym. Qed.

(** ** The memo invariant *)
Definition memo_ok (a : algorithm) (m : memo) : Prop :=
  forall k d, memo_get m k = Some d -> d = kdst a k.

Lemma memo_ok_nil a : memo_ok a [].
Proof. intros k d H; discriminate. Qed.

Lemma memo_ok_set a m k d : memo_ok a m -> d = kdst a k -> memo_ok a (memo_set m k d).
Proof.
  intros Hm Hd k' d'. unfold memo_set; simpl. destruct (key_eqb k k') eqn:E.
  - apply key_eqb_eq in E; subst. intros H; injection H; auto.
  - apply Hm.
Qed.

(** ** Well-behaved programs: read a correct value or nothing, write correct
    values, finish within [n] actions with a result satisfying [Q]. *)
Inductive good (a : algorithm) {A : Type} (Q : A -> Prop) : nat -> prog A -> Prop :=
| good_ret : forall n x, Q x -> good a Q n (Ret x)
| good_get : forall n k c, good a Q n (c None) -> good a Q n (c (Some (kdst a k))) ->
    good a Q (S n) (GetM k c)
| good_set : forall n k d c, d = kdst a k -> good a Q n c -> good a Q (S n) (SetM k d c).

Lemma good_weaken a {A} (Q Q' : A -> Prop) n m p :
  good a Q n p -> n <= m -> (forall x, Q x -> Q' x) -> good a Q' m p.
Proof.
  intros H; revert m; induction H; intros m Hm HQ.
  - constructor; auto.
  - destruct m; [lia|]. constructor; [apply IHgood1|apply IHgood2]; auto; lia.
  - destruct m; [lia|]. constructor; auto. apply IHgood; auto; lia.
Qed.

Lemma good_bind a {A B} (Q : A -> Prop) (R : B -> Prop) n m p (f : A -> prog B) :
  good a Q n p -> (forall x, Q x -> good a R m (f x)) -> good a R (n + m) (pbind p f).
Proof.
  intros H Hf; induction H; simpl.
  - eapply good_weaken; [apply Hf; auto|lia|auto].
  - constructor; auto.
  - constructor; auto.
Qed.

Lemma good_return_set a k d n : d = kdst a k -> 1 <= n -> good a (fun x => x = kdst a k) n (return_set k d).
Proof.
  intros Hd Hn; destruct n; [lia|]. unfold return_set; constructor; auto. constructor; auto.
Qed.

(** ** Prefix discarding *)
Lemma discard_spec a s b t : forall c x d y, discard a s b t = (c, x, d, y) ->
  (forall alg, dst alg (a :: s) (b :: t) = dst alg (c :: x) (d :: y)) /\
  (c = d -> x = [] \/ y = []) /\
  length (c :: x) + length (d :: y) <= length (a :: s) + length (b :: t).
Proof.
  revert a b t; induction s as [|a' s IH]; intros a b t c x d y H; simpl in H.
  - injection H as <- <- <- <-. repeat split; auto.
  - destruct t as [|b' t].
    + injection H as <- <- <- <-. repeat split; auto.
    + destruct (ceqb a b) eqn:E.
      * apply ceqb_true in E; subst b. apply IH in H. destruct H as (H1 & H2 & H3).
        repeat split; auto. { intros alg; rewrite dst_head; auto. } simpl in *; lia.
      * injection H as <- <- <- <-. repeat split; auto.
        intros ->. rewrite ceqb_refl in E; discriminate.
Qed.

(** ** The recursive calls cover the optimum *)
Lemma f_suffix_1 c d v : f_suffix (c :: d :: v) 1 = v.
Proof. reflexivity. Qed.

Lemma calls_upper alg c x d y p q : In (p, q) (recursive_calls alg c x d y) ->
  dst alg (c :: x) (d :: y) <= S (dst alg p q) /\
  length p + length q < length (c :: x) + length (d :: y).
Proof.
  unfold recursive_calls; intros H; apply in_app_or in H; destruct H as [H|H].
  - destruct H as [H|[H|[H|[]]]]; injection H as <- <-; split; try (simpl; lia); apply dst_le.
    + apply cle_del, dst_le; lia.
    + apply cle_ins, dst_le; lia.
    + apply cle_sub, dst_le; lia.
  - destruct alg; [destruct H| |].
    + destruct x as [|a1 x]; [destruct H|]. destruct y as [|b1 y]; [destruct H|].
      destruct (ceqb c b1 && ceqb a1 d) eqn:E; [|destruct H].
      apply andb_prop in E as [E1 E2]; apply ceqb_true in E1, E2; subst.
      destruct H as [H|[]]; injection H as <- <-. rewrite !f_suffix_1. split; [|simpl; lia].
      apply dst_le, cle_tr; auto; apply dst_le; lia.
    + apply in_app_or in H; destruct H as [H|H].
      * destruct y as [|d' y]; [destruct H|]. destruct H as [H|[]]; injection H as <- <-.
        rewrite ?f_suffix_1. split; [|simpl; lia].
        apply dst_le, cle_spl; auto; apply dst_le; lia.
      * destruct x as [|c' x]; [destruct H|]. destruct H as [H|[]]; injection H as <- <-.
        rewrite ?f_suffix_1. split; [|simpl; lia].
        apply dst_le, cle_mrg; auto; apply dst_le; lia.
Qed.

Lemma calls_attained alg c x d y : c <> d ->
  exists p q, In (p, q) (recursive_calls alg c x d y) /\ S (dst alg p q) <= dst alg (c :: x) (d :: y).
Proof.
  intros Hcd. unfold recursive_calls. pose proof (dst_attained alg (c :: x) (d :: y)) as H.
  set (n := dst alg (c :: x) (d :: y)) in *. clearbody n.
  inv H; try contradiction.
  - exists x, (d :: y); split; [apply in_or_app; left; simpl; auto|].
    apply le_n_S, dst_least; auto.
  - exists (c :: x), y; split; [apply in_or_app; left; simpl; auto|].
    apply le_n_S, dst_least; auto.
  - exists x, y; split; [apply in_or_app; left; simpl; auto|].
    apply le_n_S, dst_least; auto.
  - exists v, w; split; [apply in_or_app; right|].
    + rewrite !ceqb_refl. simpl. left; reflexivity.
    + apply le_n_S, dst_least; auto.
  - exists v, y; split; [apply in_or_app; right; apply in_or_app; right|].
    + simpl; left; reflexivity.
    + apply le_n_S, dst_least; auto.
  - exists x, w; split; [apply in_or_app; right; apply in_or_app; left|].
    + simpl; left; reflexivity.
    + apply le_n_S, dst_least; auto.
Qed.

Lemma calls_length alg c x d y : length (recursive_calls alg c x d y) <= 5 /\ recursive_calls alg c x d y <> [].
Proof.
  unfold recursive_calls. split; [|discriminate]. rewrite app_length. simpl.
  destruct alg; simpl; try lia.
  - destruct x; simpl; [lia|]. destruct y; simpl; [lia|]. destruct (_ && _); simpl; lia.
  - rewrite app_length. destruct y, x; simpl; lia.
Qed.

(** ** The block of recursive calls *)
Lemma try_calls_good alg rec k B : forall cs D mo,
  (forall p q, In (p, q) cs -> good alg (fun x => x = dst alg p q) B (rec p q)) ->
  kdst alg k = D -> 0 < D ->
  (forall p q, In (p, q) cs -> D <= S (dst alg p q)) ->
  match mo with
  | None => cs <> [] /\ exists p q, In (p, q) cs /\ S (dst alg p q) <= D
  | Some m => D <= S m /\ (S m <= D \/ exists p q, In (p, q) cs /\ S (dst alg p q) <= D)
  end ->
  good alg (fun x => x = kdst alg k) (length cs * B + 1) (try_calls rec k cs mo).
Proof.
  induction cs as [|[p q] cs IH]; intros D mo Hrec HD Hpos Hup Hmo; cbn [try_calls].
  - destruct mo as [m|]; [|destruct Hmo as [Hmo _]; contradiction].
    destruct Hmo as [H1 [H2|(p & q & [] & _)]].
    apply good_return_set; lia.
  - cbn [length]. replace (S (length cs) * B + 1) with (B + (length cs * B + 1)) by lia.
    apply good_bind with (Q := fun x => x = dst alg p q); [apply Hrec; left; auto|].
    intros x ->. destruct (Nat.eqb_spec 0 (dst alg p q)) as [E|E].
    + apply good_return_set; [|lia].
      assert (D <= S (dst alg p q)) by (apply Hup; left; auto). lia.
    + assert (Hd : D <= S (dst alg p q)) by (apply Hup; left; auto).
      apply IH with (D := D); auto.
      * intros p' q' Hin; apply Hrec; right; auto.
      * intros p' q' Hin; apply Hup; right; auto.
      * destruct mo as [m|].
        -- destruct Hmo as [H1 H2]. split.
           ++ destruct (Nat.ltb_spec (dst alg p q) m); lia.
           ++ destruct (Nat.ltb_spec (dst alg p q) m) as [L|L].
              ** destruct H2 as [H2|(p' & q' & [H2|H2] & H3)]; [left; lia| |right; eauto].
                 injection H2 as <- <-. left; lia.
              ** destruct H2 as [H2|(p' & q' & [H2|H2] & H3)]; [left; lia| |right; eauto].
                 injection H2 as <- <-. left; lia.
        -- destruct Hmo as [_ (p' & q' & [H2|H2] & H3)].
           ++ injection H2 as <- <-. split; [lia|left; lia].
           ++ split; [lia|right; eauto].
Qed.

Fixpoint action_bound (fuel : nat) : nat :=
  match fuel with O => 0 | S f => 2 + 5 * action_bound f end.

Lemma between_fuel_good alg f : forall v w, length v + length w < f ->
  good alg (fun x => x = dst alg v w) (action_bound f) (between_fuel f alg v w).
Proof.
  induction f as [|f IH]; intros v w Hf; [lia|].
  rewrite <- (kdst_pair alg v w).
  cbn [between_fuel action_bound].
  assert (Hb : 1 <= 1 + 5 * action_bound f) by lia.
  set (B := 1 + 5 * action_bound f) in *.
  change (2 + 5 * action_bound f) with (S B).
  apply good_get; [|apply good_ret; reflexivity].
  destruct v as [|a s].
  { apply good_return_set; [now rewrite kdst_pair, dst_nil_l|auto]. }
  destruct w as [|b t].
  { apply good_return_set; [now rewrite kdst_pair, dst_nil_r|auto]. }
  destruct (discard a s b t) as [[[c x] d] y] eqn:E.
  destruct (discard_spec _ _ _ _ _ _ _ _ E) as (H1 & H2 & H3).
  destruct (ceqb c d) eqn:Ecd.
  - apply ceqb_true in Ecd; subst d. specialize (H2 eq_refl).
    assert (Hk : kdst alg (symmetric_pair (a :: s) (b :: t)) = dst alg x y).
    { rewrite kdst_pair, H1, dst_head; auto. }
    destruct x as [|x0 x].
    + apply good_return_set; [now rewrite Hk, dst_nil_l|auto].
    + destruct H2 as [H2|H2]; [discriminate|]. subst y.
      apply good_return_set; [now rewrite Hk, dst_nil_r|auto].
  - apply ceqb_false in Ecd.
    destruct (calls_length alg c x d y) as [Hlen Hne].
    apply good_weaken with (n := length (recursive_calls alg c x d y) * action_bound f + 1)
                           (Q := fun z => z = kdst alg (symmetric_pair (a :: s) (b :: t))); auto.
    + eapply try_calls_good with (D := dst alg (c :: x) (d :: y)).
      * intros p q Hin. apply IH. apply calls_upper in Hin. lia.
      * rewrite kdst_pair; auto.
      * apply dst_pos; auto.
      * intros p q Hin; apply calls_upper in Hin; tauto.
      * split; auto. apply calls_attained; auto.
    + unfold B. nia.
Qed.

Lemma between_good alg v w :
  good alg (fun x => x = dst alg v w) (action_bound (S (length v + length w))) (between alg v w).
Proof. apply between_fuel_good; lia. Qed.

(** ** Sequential runs *)
Lemma good_run alg {A} (Q : A -> Prop) n p m : good alg Q n p -> memo_ok alg m ->
  exists x m', run p m = Ok (x, m') /\ Q x /\ memo_ok alg m'.
Proof.
  intros H; revert m; induction H; intros m Hm; simpl.
  - exists x, m; auto.
  - destruct (memo_get m k) as [d|] eqn:E.
    + rewrite (Hm _ _ E). auto.
    + auto.
  - apply IHgood. apply memo_ok_set; auto.
Qed.

Definition dists (alg : algorithm) (l : list (str * str)) : list nat :=
  map (fun vw => dst alg (fst vw) (snd vw)) l.

Fixpoint calls_bound (l : list (str * str)) : nat :=
  match l with
  | [] => 0
  | (v, w) :: l' => action_bound (S (length v + length w)) + (calls_bound l' + 0)
  end.

Lemma calls_good alg l : good alg (fun ds => ds = dists alg l) (calls_bound l) (calls alg l).
Proof.
  induction l as [|[v w] l IH]; cbn [calls calls_bound].
  - constructor; reflexivity.
  - eapply good_bind; [apply between_good|]. intros x ->.
    eapply good_bind; [exact IH|]. intros ds ->. constructor. reflexivity.
Qed.

(** ** Concurrent runs *)
Lemma good_step alg {A} (Q : A -> Prop) n m p m' p' :
  good alg Q n p -> memo_ok alg m -> thread_step m p m' p' ->
  memo_ok alg m' /\ exists n', n = S n' /\ good alg Q n' p'.
Proof.
  intros Hg Hm Hs; inv Hs; inv Hg.
  - split; auto. eexists; split; [reflexivity|].
    destruct (memo_get m' k) as [d|] eqn:E; auto. rewrite (Hm _ _ E); auto.
  - split; [apply memo_ok_set; auto|]. eexists; split; [reflexivity|auto].
Qed.

(** A pool in which thread i was started with call list [cs_i]. *)
Inductive pool_good (alg : algorithm) : nat -> list (list (str * str)) -> list (prog (list nat)) -> Prop :=
| pg_nil : pool_good alg 0 [] []
| pg_cons : forall n b cs p css ps, good alg (fun ds => ds = dists alg cs) n p ->
    pool_good alg b css ps -> pool_good alg (n + b) (cs :: css) (p :: ps).

Lemma pool_good_init alg css :
  pool_good alg (fold_right (fun cs b => calls_bound cs + b) 0 css) css (map (calls alg) css).
Proof. induction css; simpl; constructor; auto using calls_good. Qed.

Lemma pool_good_step alg b css m ps m' ps' :
  memo_ok alg m -> pool_good alg b css ps -> pool_step (m, ps) (m', ps') ->
  memo_ok alg m' /\ exists b', b = S b' /\ pool_good alg b' css ps'.
Proof.
  intros Hm Hg Hs; inv Hs.
  match goal with H : thread_step _ _ _ _ |- _ => rename H into Ht end.
  revert b css Hg; induction pre as [|p0 pre IH]; simpl; intros b css Hg; inv Hg.
  - match goal with H : good _ _ _ _ |- _ => destruct (good_step _ _ _ _ _ _ _ H Hm Ht) as (H1 & n' & -> & H2) end.
    split; auto. eexists; split; [reflexivity|]. constructor; auto.
  - match goal with H : pool_good _ _ _ _ |- _ => destruct (IH _ _ H) as (H1 & b' & -> & H2) end.
    split; auto. exists (n + b'); split; [lia|]. constructor; auto.
Qed.

Lemma pool_good_steps alg n c c' : pool_steps n c c' -> forall b css,
  memo_ok alg (fst c) -> pool_good alg b css (snd c) ->
  memo_ok alg (fst c') /\ exists b', b = n + b' /\ pool_good alg b' css (snd c').
Proof.
  induction 1 as [c|n c c1 c2 Hs _ IH]; intros b css Hm Hg.
  - split; auto. exists b; auto.
  - destruct c as [m ps], c1 as [m1 ps1].
    destruct (pool_good_step _ _ _ _ _ _ _ Hm Hg Hs) as (H1 & b1 & -> & H2).
    destruct (IH _ _ H1 H2) as (H3 & b2 & -> & H4).
    split; auto. exists b2; auto.
Qed.

Lemma pool_good_nth alg b css ps : pool_good alg b css ps ->
  length ps = length css /\
  forall i cs, nth_error css i = Some cs ->
    exists p n, nth_error ps i = Some p /\ good alg (fun ds => ds = dists alg cs) n p.
Proof.
  induction 1 as [|n b cs p css ps Hg Hp [IH1 IH2]]; simpl.
  - split; auto. intros [|i]; discriminate.
  - split; auto. intros [|i] cs' Hi; simpl in *.
    + injection Hi as <-. eauto.
    + auto.
Qed.

(** A thread that has not finished can always take its next step. *)
Lemma good_progress alg {A} (Q : A -> Prop) n p m : good alg Q n p ->
  (exists x, p = Ret x /\ Q x) \/ exists m' p', thread_step m p m' p'.
Proof.
  intros H; inv H; [left; eauto|right|right]; do 2 eexists; constructor.
Qed.
