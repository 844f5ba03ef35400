(** * States: merge, unsubsume, sort, state transition, distance *)
From Coq Require Import Sorting.Sorted Sorting.Permutation.
From Verif Require Import Base Spec SpecLimits ModelTransducer AlignProofs ConsumeProofs TransProofs.
Local Open Scope nat_scope.

(** ** merge *)

(** The fields of a position that an algorithm distinguishes. *)
Definition key (alg : algorithm) (p : position) : N * N * bool :=
  (ne p, ti p, match alg with STANDARD => false | _ => sp p end).

Lemma merge_same_key alg a b : merge_same alg a b = true <-> key alg a = key alg b.
Proof.
  unfold merge_same, key. rewrite !Bool.andb_true_iff, !N.eqb_eq.
  destruct alg; try rewrite Bool.eqb_true_iff; split; intuition (try congruence).
Qed.

Lemma merge_before_irrefl alg a b : key alg a = key alg b -> merge_before alg a b = false.
Proof.
  unfold key, merge_before. intros E.
  destruct alg; injection E; intros; try (destruct (sp a), (sp b); try discriminate); lia.
Qed.

Lemma merge_before_trans alg a b c : merge_before alg a b = true -> merge_before alg b c = true ->
  merge_before alg a c = true.
Proof.
  unfold merge_before. destruct alg; try (destruct (sp a), (sp b), (sp c)); cbn [negb andb]; lia.
Qed.

Lemma merge_before_total alg a b : merge_before alg a b = false -> merge_same alg a b = false ->
  merge_before alg b a = true.
Proof.
  unfold merge_before, merge_same. destruct alg; try (destruct (sp a), (sp b)); cbn [negb andb Bool.eqb]; lia.
Qed.

(** descending order of (errors, index, special) *)
Definition merged (alg : algorithm) (st : state) : Prop :=
  StronglySorted (fun b a => merge_before alg a b = true) st.

Lemma merge_one_in alg st a p : In p (merge_one alg st a) -> p = a \/ In p st.
Proof.
  induction st as [|b st IH]; simpl; [intuition|].
  destruct (merge_before alg a b); simpl.
  - intuition.
  - destruct (merge_same alg a b); simpl; intuition.
Qed.

Lemma merge_one_keys alg st a k :
  In k (map (key alg) (merge_one alg st a)) <-> k = key alg a \/ In k (map (key alg) st).
Proof.
  induction st as [|b st IH]; simpl; [intuition congruence|].
  destruct (merge_before alg a b); simpl.
  - rewrite IH. intuition.
  - destruct (merge_same alg a b) eqn:E; simpl; [|intuition congruence].
    apply merge_same_key in E. rewrite E. intuition congruence.
Qed.

Lemma merge_one_merged alg st a : merged alg st -> merged alg (merge_one alg st a).
Proof.
  unfold merged. induction st as [|b st IH]; intros H; simpl; [repeat constructor|].
  inversion H as [|? ? Hs Hf]; subst.
  destruct (merge_before alg a b) eqn:E.
  - constructor; auto. apply Forall_forall. intros p Hp.
    apply merge_one_in in Hp. destruct Hp as [->|Hp]; auto.
    rewrite Forall_forall in Hf. auto.
  - destruct (merge_same alg a b) eqn:E'; auto.
    constructor; auto. pose proof (merge_before_total _ _ _ E E').
    constructor; auto. rewrite Forall_forall in *. intros p Hp.
    eapply merge_before_trans; eauto.
Qed.

Lemma merge_in alg ps : forall st p, In p (merge alg st ps) -> In p st \/ In p ps.
Proof.
  induction ps as [|a ps IH]; intros st p H; simpl in *; auto.
  apply IH in H. destruct H as [H|H]; auto. apply merge_one_in in H. intuition.
Qed.

Lemma merge_keys alg ps : forall st k,
  In k (map (key alg) (merge alg st ps)) <-> In k (map (key alg) st) \/ In k (map (key alg) ps).
Proof.
  induction ps as [|a ps IH]; intros st k; simpl; [intuition|].
  change (fold_left (merge_one alg) ps (merge_one alg st a)) with (merge alg (merge_one alg st a) ps).
  rewrite IH, merge_one_keys. intuition congruence.
Qed.

Lemma merge_merged alg ps : forall st, merged alg st -> merged alg (merge alg st ps).
Proof.
  induction ps as [|a ps IH]; intros st H; simpl; auto. apply IH. now apply merge_one_merged.
Qed.

Lemma merged_nodup alg st : merged alg st -> NoDup (map (key alg) st).
Proof.
  unfold merged. induction 1 as [|b st Hs IH Hf]; simpl; constructor; auto.
  intros H. apply in_map_iff in H. destruct H as (p & E & Hp).
  rewrite Forall_forall in Hf. apply Hf in Hp.
  rewrite merge_before_irrefl in Hp; congruence.
Qed.

(** ** unsubsume *)
Lemma skip_remove_noop alg n o l : Forall (fun p => (ne p <= ne o)%N) l -> skip_remove alg n o l = l.
Proof.
  induction 1 as [|p l Hp Hl IH]; simpl; auto.
  destruct (N.ltb_spec (ne o) (ne p)); [lia|]. now rewrite IH.
Qed.

Lemma merge_before_ne alg a b : merge_before alg a b = true -> (ne a <= ne b)%N.
Proof. unfold merge_before. intros H. destruct alg; lia. Qed.

Lemma unsubsume_steps_noop alg n k : forall l,
  StronglySorted (fun b a => (ne a <= ne b)%N) l -> unsubsume_steps k alg n l = l.
Proof.
  induction k as [|k IH]; intros l H; [reflexivity|].
  destruct l as [|o l]; [reflexivity|]. simpl. inversion H; subst.
  rewrite skip_remove_noop by auto. now rewrite IH.
Qed.

Lemma unsubsume_noop alg n st : merged alg st -> unsubsume alg n st = st.
Proof.
  intros H. apply unsubsume_steps_noop. unfold merged in H.
  induction H as [|b st Hs IH Hf]; constructor; auto.
  rewrite Forall_forall in *. intros p Hp. apply merge_before_ne with alg. auto.
Qed.

(** ** sort *)
Section Sort.
Variable cmp : position -> position -> Z.
Definition ple (a b : position) : Prop := (cmp a b < 1)%Z.
Hypothesis ple_total : forall a b, ple a b \/ ple b a.
Hypothesis ple_trans : forall a b c, ple a b -> ple b c -> ple a c.
Hypothesis ple_eq : forall a b, cmp a b = 0%Z <-> ple a b /\ ple b a.

Lemma merge_lists_nil_l u : merge_lists cmp [] u = u.
Proof. destruct u; reflexivity. Qed.
Lemma merge_lists_nil_r l : merge_lists cmp l [] = l.
Proof. destruct l; reflexivity. Qed.
Lemma merge_lists_cons a l b u : merge_lists cmp (a :: l) (b :: u) =
  if (cmp a b <? 1)%Z then a :: merge_lists cmp l (b :: u) else b :: merge_lists cmp (a :: l) u.
Proof. reflexivity. Qed.

Lemma merge_lists_ind (P : state -> state -> Prop) :
  (forall u, P [] u) -> (forall l, P l []) ->
  (forall a l b u, (cmp a b < 1)%Z -> P l (b :: u) -> P (a :: l) (b :: u)) ->
  (forall a l b u, (1 <= cmp a b)%Z -> P (a :: l) u -> P (a :: l) (b :: u)) ->
  forall l u, P l u.
Proof.
  intros H1 H2 H3 H4. induction l as [|a l IHl]; auto. induction u as [|b u IHu]; auto.
  destruct (Z.lt_ge_cases (cmp a b) 1); auto.
Qed.

Lemma merge_lists_perm l u : Permutation (l ++ u) (merge_lists cmp l u).
Proof.
  revert l u; apply merge_lists_ind.
  - intros u; rewrite merge_lists_nil_l; auto.
  - intros l; rewrite merge_lists_nil_r, app_nil_r; auto.
  - intros a l b u H IH. rewrite merge_lists_cons. destruct (Z.ltb_spec (cmp a b) 1); [|lia].
    simpl. now constructor.
  - intros a l b u H IH. rewrite merge_lists_cons. destruct (Z.ltb_spec (cmp a b) 1); [lia|].
    rewrite <- Permutation_middle. now constructor.
Qed.

Lemma merge_lists_in l u p : In p (merge_lists cmp l u) <-> In p l \/ In p u.
Proof.
  rewrite <- in_app_iff. split; apply Permutation_in; [symmetry|]; apply merge_lists_perm.
Qed.

Lemma merge_lists_sorted l u : StronglySorted ple l -> StronglySorted ple u ->
  StronglySorted ple (merge_lists cmp l u).
Proof.
  revert l u; refine (merge_lists_ind _ _ _ _ _).
  - intros u _ H; now rewrite merge_lists_nil_l.
  - intros l H _; now rewrite merge_lists_nil_r.
  - intros a l b u H IH Hl Hu. rewrite merge_lists_cons. destruct (Z.ltb_spec (cmp a b) 1); [|lia].
    inversion Hl as [|? ? Hl1 Hl2]; subst. inversion Hu as [|? ? Hu1 Hu2]; subst.
    constructor; auto. apply Forall_forall; intros p Hp. apply merge_lists_in in Hp.
    rewrite Forall_forall in Hl2, Hu2. destruct Hp as [Hp|[<-|Hp]]; auto.
    apply ple_trans with b; auto.
  - intros a l b u H IH Hl Hu. rewrite merge_lists_cons. destruct (Z.ltb_spec (cmp a b) 1); [lia|].
    inversion Hl as [|? ? Hl1 Hl2]; subst. inversion Hu as [|? ? Hu1 Hu2]; subst.
    assert (Hba : ple b a). { destruct (ple_total b a) as [E|E]; auto. unfold ple in E; lia. }
    constructor; auto. apply Forall_forall; intros p Hp. apply merge_lists_in in Hp.
    rewrite Forall_forall in Hl2, Hu2. destruct Hp as [[<-|Hp]|Hp]; auto.
    apply ple_trans with a; auto.
Qed.

Definition same_as (q : position) (p : position) : bool := (cmp p q =? 0)%Z.

Lemma merge_lists_stable q l u : StronglySorted ple l -> StronglySorted ple u ->
  filter (same_as q) (merge_lists cmp l u) = filter (same_as q) l ++ filter (same_as q) u.
Proof.
  revert l u; refine (merge_lists_ind _ _ _ _ _).
  - intros u _ H; now rewrite merge_lists_nil_l.
  - intros l H _; now rewrite merge_lists_nil_r, app_nil_r.
  - intros a l b u H IH Hl Hu. rewrite merge_lists_cons. destruct (Z.ltb_spec (cmp a b) 1); [|lia].
    inversion Hl as [|? ? Hl1 Hl2]; subst. specialize (IH Hl1 Hu).
    cbn [filter]. rewrite IH. destruct (same_as q a); reflexivity.
  - intros a l b u H IH Hl Hu. rewrite merge_lists_cons. destruct (Z.ltb_spec (cmp a b) 1); [lia|].
    inversion Hu as [|? ? Hu1 Hu2]; subst. specialize (IH Hl Hu1).
    cbn [filter] in *. rewrite IH. destruct (same_as q b) eqn:Eb; [|reflexivity].
    assert (Hnone : forall p, In p (a :: l) -> same_as q p = false).
    { intros p Hp. destruct (same_as q p) eqn:Ep; auto. exfalso.
      unfold same_as in *. apply Z.eqb_eq in Eb, Ep. apply ple_eq in Eb, Ep.
      assert (ple a p).
      { inversion Hl as [|? ? Hl1 Hl2]; subst. rewrite Forall_forall in Hl2. destruct Hp as [<-|Hp]; auto.
        destruct (ple_total a a); auto. }
      assert (ple a b).
      { apply ple_trans with p; auto. apply ple_trans with q; tauto. }
      unfold ple in *; lia. }
    assert (E : filter (same_as q) (a :: l) = []).
    { clear -Hnone. induction (a :: l) as [|p l' IHl]; auto. cbn [filter]. rewrite Hnone by (left; auto).
      apply IHl. intros; apply Hnone; right; auto. }
    cbn [filter] in E. rewrite E. reflexivity.
Qed.

Lemma halves_length l : length (fst (halves l)) = (length l + 1) / 2 /\
  length (snd (halves l)) = length l - (length l + 1) / 2 /\ fst (halves l) ++ snd (halves l) = l.
Proof.
  unfold halves; cbn [fst snd]. rewrite firstn_length, skipn_length, firstn_skipn.
  pose proof (Nat.div_mod (length l + 1) 2 ltac:(lia)). pose proof (Nat.mod_upper_bound (length l + 1) 2).
  repeat split; lia.
Qed.

Lemma merge_sort_ok : forall fuel l, length l <= fuel ->
  exists s, merge_sort fuel cmp l = Ok s /\ Permutation l s /\ StronglySorted ple s /\
            forall q, filter (same_as q) s = filter (same_as q) l.
Proof.
  induction fuel as [|f IH]; intros l Hl.
  - destruct l; [|simpl in Hl; lia]. exists []. repeat split; auto. constructor.
  - destruct l as [|a [|b l]].
    + exists []. repeat split; auto. constructor.
    + exists [a]. repeat split; auto. repeat constructor.
    + cbn [merge_sort]. destruct (halves (a :: b :: l)) as [lo up] eqn:E.
      destruct (halves_length (a :: b :: l)) as (H1 & H2 & H3). rewrite E in *. cbn [fst snd length] in *.
      pose proof (Nat.div_mod (S (S (length l)) + 1) 2 ltac:(lia)).
      pose proof (Nat.mod_upper_bound (S (S (length l)) + 1) 2 ltac:(lia)).
      destruct (IH lo ltac:(lia)) as (s1 & -> & P1 & S1 & F1).
      destruct (IH up ltac:(lia)) as (s2 & -> & P2 & S2 & F2). cbn [rbind].
      exists (merge_lists cmp s1 s2). repeat split.
      * rewrite <- H3, <- merge_lists_perm. now apply Permutation_app.
      * now apply merge_lists_sorted.
      * intros q. rewrite merge_lists_stable, F1, F2, <- H3, filter_app by auto. reflexivity.
Qed.

Lemma sort_ok l : exists s, sort cmp l = Ok s /\ Permutation l s /\ StronglySorted ple s /\
            forall q, filter (same_as q) s = filter (same_as q) l.
Proof. apply merge_sort_ok; auto. Qed.
End Sort.

Lemma compare_le alg a b : (compare alg a b < 1)%Z <->
  (ti a < ti b \/ ti a = ti b /\ (ne a < ne b \/ ne a = ne b /\
     match alg with STANDARD => True | _ => Bool.le (sp a) (sp b) end))%N.
Proof.
  unfold compare.
  destruct (N.ltb_spec (ti a) (ti b)), (N.ltb_spec (ti b) (ti a)), (N.ltb_spec (ne a) (ne b)),
    (N.ltb_spec (ne b) (ne a)), alg, (sp a), (sp b); cbn [Z.b2z Bool.le]; lia.
Qed.

Lemma compare_total alg a b : (compare alg a b < 1 \/ compare alg b a < 1)%Z.
Proof.
  rewrite !compare_le. destruct alg, (sp a), (sp b); cbn [Bool.le]; lia.
Qed.

Lemma compare_trans alg a b c : (compare alg a b < 1)%Z -> (compare alg b c < 1)%Z -> (compare alg a c < 1)%Z.
Proof.
  rewrite !compare_le. destruct alg, (sp a), (sp b), (sp c); cbn [Bool.le]; lia.
Qed.

Lemma compare_eq alg a b : compare alg a b = 0%Z <-> (compare alg a b < 1 /\ compare alg b a < 1)%Z.
Proof.
  unfold compare.
  destruct (N.ltb_spec (ti a) (ti b)), (N.ltb_spec (ti b) (ti a)), (N.ltb_spec (ne a) (ne b)),
    (N.ltb_spec (ne b) (ne a)), alg, (sp a), (sp b); cbn [Z.b2z]; lia.
Qed.

Definition sort_compare_ok alg := sort_ok (compare alg) (compare_total alg) (compare_trans alg) (compare_eq alg).

(** ** State transition *)
Definition stateok (alg : algorithm) (x : str) (n : N) (b : nat) (st : state) : Prop :=
  st <> [] /\ Forall (valid alg x n b) st /\ StronglySorted (ple (compare alg)) st.

Lemma stateok_head alg x n b h st : stateok alg x n b (h :: st) ->
  (N.of_nat b <= ti h + n)%N /\ Forall (fun p => (ti h <= ti p)%N) (h :: st).
Proof.
  intros (_ & Hv & Hs). inversion Hv as [|? ? Hh Hr]; subst. inversion Hs as [|? ? Hs1 Hs2]; subst. split.
  - destruct Hh as (V1 & V2 & V3 & V4). unfold ii, ee in *. destruct (sp h); lia.
  - constructor; [lia|]. rewrite Forall_forall in *. intros p Hp. apply Hs2 in Hp.
    unfold ple in Hp. rewrite compare_le in Hp. lia.
Qed.

Lemma sp_standard x n b p : valid STANDARD x n b p -> sp p = false.
Proof. intros (_ & _ & _ & H). destruct (sp p); [destruct H; congruence|reflexivity]. Qed.

Lemma key_inj alg x n b p q : valid alg x n b p -> valid alg x n b q -> key alg p = key alg q -> p = q.
Proof.
  intros Hp Hq E. destruct p as [i e s], q as [j f t]. unfold key in E; cbn [ti ne sp] in E.
  destruct alg; injection E; intros; subst; auto.
  apply sp_standard in Hp, Hq. cbn [sp] in *. now subst.
Qed.

Lemma merge_in_iff alg x n b ps st p : Forall (valid alg x n b) st -> Forall (valid alg x n b) ps ->
  In p (merge alg st ps) <-> In p st \/ In p ps.
Proof.
  rewrite !Forall_forall. intros Hst Hps. split; [apply merge_in|].
  intros H. assert (Hp : valid alg x n b p) by (destruct H; auto).
  assert (Hk : In (key alg p) (map (key alg) (merge alg st ps))).
  { apply merge_keys. destruct H; [left|right]; now apply in_map. }
  apply in_map_iff in Hk. destruct Hk as (q & E & Hq).
  assert (valid alg x n b q) by (apply merge_in in Hq; destruct Hq; auto).
  now rewrite <- (key_inj alg x n b q p).
Qed.

Section StateStep.
Variables (alg : algorithm) (x : str) (n : N) (b : nat) (c : char) (off : N).
Hypothesis Hx : (N.of_nat (length x) <= LEN_MAX)%N.
Hypothesis Hn : (n <= SIZE_MAX)%N.
Hypothesis Hb : small_depth b.
Hypothesis Hbo : (N.of_nat b <= off + n)%N.

Lemma merge_transitions_ok : forall curr next,
  Forall (valid alg x n b) curr -> Forall (fun p => (off <= ti p)%N) curr ->
  merged alg next -> Forall (valid alg x n (S b)) next ->
  exists next', merge_transitions alg n (wvec x n c off) off curr next = Ok next' /\
    merged alg next' /\ Forall (valid alg x n (S b)) next' /\
    forall u k, (N.of_nat k <= n)%N ->
      (sacc alg x curr (c :: u) k \/ sacc alg x next u k <-> sacc alg x next' u k).
Proof.
  induction curr as [|p curr IH]; intros next Hc Ho Hm Hv; cbn [merge_transitions].
  - exists next. repeat split; auto.
    intros [(p & [] & _)|H']; auto.
  - inversion Hc as [|? ? Hp Hc']; subst. inversion Ho as [|? ? Hpo Ho']; subst.
    destruct (position_step alg x n b c off p Hx Hn Hb Hpo Hbo Hp) as (ps & -> & Hps & Hacc). cbn [rbind].
    destruct (IH (merge alg next ps) Hc' Ho') as (next' & -> & Hm' & Hv' & Hacc').
    + now apply merge_merged.
    + rewrite Forall_forall in *. intros q Hq. apply merge_in in Hq. destruct Hq; auto.
    + exists next'. repeat split; auto.
      * intros H'. apply Hacc'; auto. destruct H' as [(q & [<-|Hq] & Hq')|(q & Hq & Hq')].
        { apply Hacc in Hq'; auto. destruct Hq' as (p' & Hp' & Hq'). right. exists p'; split; auto.
          eapply merge_in_iff; eauto. }
        { left; exists q; auto. }
        { right; exists q; split; auto. eapply merge_in_iff; eauto. }
      * intros H'. apply Hacc' in H'; auto. destruct H' as [(q & Hq & Hq')|(q & Hq & Hq')].
        { left; exists q; split; simpl; auto. }
        { apply merge_in in Hq. destruct Hq as [Hq|Hq].
          - right; exists q; auto.
          - left. exists p; split; [left; auto|]. apply Hacc; auto. eauto. }
Qed.
End StateStep.

Theorem state_step alg x n b c h st :
  manageable x n -> (n <= SIZE_MAX)%N -> small_depth b ->
  stateok alg x n b (h :: st) ->
  exists cv, characteristic_vector c x (query_k (query_a n) (N.of_nat (length x)) (ti h)) (ti h) = Ok cv /\
  exists o, state_transition alg n (N.of_nat (length x)) (h :: st) cv = Ok o /\
  match o with
  | None => forall u k, (N.of_nat k <= n)%N -> ~ sacc alg x (h :: st) (c :: u) k
  | Some st' => stateok alg x n (S b) st' /\
                forall u k, (N.of_nat k <= n)%N -> (sacc alg x (h :: st) (c :: u) k <-> sacc alg x st' u k)
  end.
Proof.
  intros Hm Hn Hb Hok. pose proof (manageable_len x n Hm) as Hx. destruct (stateok_head _ _ _ _ _ _ Hok) as [Hbo Hti].
  destruct Hok as (_ & Hv & Hs).
  exists (wvec x n c (ti h)). split.
  - unfold wvec, wsize. assert (Hh : valid alg x n b h) by (inversion Hv; auto).
    assert (Hw : (ti h + wsize x n (ti h) <= N.of_nat (length x) /\ wsize x n (ti h) <= 2 * n + 1)%N).
    { split; [eapply wsize_spec|eapply wsize_le]; eauto; lia. }
    unfold wsize in Hw. rewrite characteristic_vector_ok; auto; [|lia].
    destruct Hm as (_ & Hm). lia.
  - cbn [state_transition].
    destruct (merge_transitions_ok alg x n b c (ti h) Hx Hn Hb Hbo (h :: st) [] Hv Hti)
      as (next & -> & Hmg & Hv' & Hacc); try constructor. cbn [rbind].
    rewrite unsubsume_noop by auto.
    destruct next as [|q next].
    + exists None. split; auto. intros u k Hk H.
      assert (H' : sacc alg x [] u k) by (apply Hacc; auto). destruct H' as (? & [] & _).
    + destruct (sort_compare_ok alg (q :: next)) as (s & -> & Hp & Hss & _). cbn [rbind].
      exists (Some s). split; [auto|]. split.
      * repeat split; auto.
        { intros ->. apply Permutation_sym, Permutation_nil in Hp. discriminate. }
        { rewrite Forall_forall in *. intros p Hip. apply Hv'. eapply Permutation_in; [symmetry|]; eauto. }
      * intros u k Hk. specialize (Hacc u k Hk).
        assert (E : sacc alg x s u k <-> sacc alg x (q :: next) u k).
        { unfold sacc. split; intros (p & Hip & H'); exists p; split; auto.
          - eapply Permutation_in; [symmetry|]; eauto.
          - eapply Permutation_in; eauto. }
        rewrite E, <- Hacc. split; auto. intros [H'|(? & [] & _)]; auto.
Qed.

(** ** distance *)
Lemma cle_nil_r alg y k : cost_le alg k y [] <-> length y <= k.
Proof. rewrite <- dst_le, dst_nil_r. reflexivity. Qed.

Definition counts (alg : algorithm) (p : position) : bool :=
  match alg with STANDARD => true | _ => negb (sp p) end.

Lemma acc_nil alg x n b p k : valid alg x n b p ->
  (acc alg x p [] k <-> counts alg p = true /\ length x - ii p + ee p <= k).
Proof.
  intros Hv. destruct p as [i e []]; unfold acc, counts; cbn [sp ti ne negb].
  - split.
    + destruct alg; [tauto| |]; intros H; repeat destruct H as [? H]; discriminate.
    + destruct alg; [|intros [H _]; discriminate|intros [H _]; discriminate].
      apply sp_standard in Hv. discriminate.
  - rewrite cle_nil_r, skipn_length. destruct alg; cbn [negb]; lia.
Qed.

Lemma distance_loop_spec alg x n b st : (N.of_nat (length x) <= LEN_MAX)%N -> small_depth b ->
  Forall (valid alg x n b) st -> forall m k,
  (distance_loop alg (N.of_nat (length x)) st m <= N.of_nat k)%N <->
  (m <= N.of_nat k)%N \/ sacc alg x st [] k.
Proof.
  intros Hx Hb H. induction H as [|p st Hp Hst IH]; intros m k; cbn [distance_loop].
  - split; auto. intros [H|(? & [] & _)]; auto.
  - rewrite IH. fold (counts alg p).
    assert (E : wadd (wsub (N.of_nat (length x)) (ti p)) (ne p) = N.of_nat (length x - ii p + ee p)).
    { destruct Hp as (V1 & V2 & V3 & V4). unfold ii, ee, small_depth, LEN_MAX in *.
      rewrite wsub_small by (unfold W; lia). rewrite wadd_small by (unfold W; lia). lia. }
    rewrite E. pose proof (acc_nil alg x n b p k Hp) as Ha.
    assert (Hs : sacc alg x (p :: st) [] k <-> acc alg x p [] k \/ sacc alg x st [] k).
    { unfold sacc; split.
      - intros (q & [<-|Hq] & Hq'); eauto.
      - intros [H'|(q & Hq & Hq')]; [exists p|exists q]; simpl; auto. }
    rewrite Hs, Ha. destruct (counts alg p); cbn [andb].
    + match goal with |- context [(?a <? m)%N] => destruct (N.ltb_spec a m) end; split; intros [H'|H']; auto.
      * right; left; split; auto; lia.
      * left; lia.
      * destruct H' as [[_ H']|H']; [left; lia|auto].
      * destruct H' as [[_ H']|H']; [left; lia|auto].
    + split; intros [H'|H']; auto. destruct H' as [[H' _]|H']; [discriminate|auto].
Qed.

Lemma distance_spec alg x n b st k : (N.of_nat (length x) <= LEN_MAX)%N -> small_depth b ->
  Forall (valid alg x n b) st -> (N.of_nat k < SIZE_MAX)%N ->
  ((distance alg st (N.of_nat (length x)) <= N.of_nat k)%N <-> sacc alg x st [] k).
Proof.
  intros Hx Hb Hv Hk. unfold distance. rewrite distance_loop_spec with (n := n) (b := b) by auto.
  split; auto. intros [H|H]; auto. lia.
Qed.

Lemma distance_loop_le alg q st : forall m, (distance_loop alg q st m <= m)%N.
Proof.
  induction st as [|p st IH]; intros m; cbn [distance_loop]; [lia|].
  etransitivity; [apply IH|].
  match goal with |- context [if ?c then _ else _] => destruct c eqn:E end; [|lia]. lia.
Qed.

(** ** What a state stands for *)

(** [represents alg x n v st]: after reading [v] the state [st] knows, for every
    continuation [u] and every number of errors up to [n], whether the query
    [x] is that close to [v ++ u]. *)
Definition represents (alg : algorithm) (x : str) (n : N) (v : str) (st : state) : Prop :=
  stateok alg x n (length v) st /\
  forall u k, (N.of_nat k <= n)%N -> (dst alg x (v ++ u) <= k <-> sacc alg x st u k).

Definition initial_state : state := [Pos 0 0 false].

Lemma represents_initial alg x n : represents alg x n [] initial_state.
Proof.
  split.
  - repeat split; try discriminate; repeat constructor; unfold ii, ee; cbn; lia.
  - intros u k Hk. rewrite dst_le. unfold sacc. split.
    + intros H. exists (Pos 0 0 false). split; [left; auto|]. rewrite acc_ns. cbn. rewrite Nat.sub_0_r. split; [lia|auto].
    + intros (p & [<-|[]] & H). rewrite acc_ns in H. cbn in H. rewrite Nat.sub_0_r in H. tauto.
Qed.

(** one label of the dictionary *)
Theorem represents_step alg x n v c h st :
  manageable x n -> (n <= SIZE_MAX)%N -> small_depth (length v) ->
  represents alg x n v (h :: st) ->
  exists cv, characteristic_vector c x (query_k (query_a n) (N.of_nat (length x)) (ti h)) (ti h) = Ok cv /\
  exists o, state_transition alg n (N.of_nat (length x)) (h :: st) cv = Ok o /\
  match o with
  | None => forall u, (n < N.of_nat (dst alg x (v ++ c :: u)))%N
  | Some st' => represents alg x n (v ++ [c]) st'
  end.
Proof.
  intros Hx Hn Hb [Hok Hrep].
  destruct (state_step alg x n (length v) c h st Hx Hn Hb Hok) as (cv & Hcv & o & Ho & H).
  exists cv; split; auto. exists o; split; auto. destruct o as [st'|].
  - destruct H as [Hok' H]. split.
    + rewrite app_length, Nat.add_1_r. auto.
    + intros u k Hk. rewrite <- H by auto. rewrite <- app_assoc. now apply Hrep.
  - intros u. destruct (N.lt_ge_cases n (N.of_nat (dst alg x (v ++ c :: u)))) as [L|L]; auto.
    exfalso. apply (H u _ L). apply Hrep; auto.
Qed.

(** the distance reported for a complete term *)
Theorem represents_distance alg x n v st :
  manageable x n -> (n <= SIZE_MAX)%N -> small_depth (length v) ->
  represents alg x n v st ->
  let d := distance alg st (N.of_nat (length x)) in
  ((d <= n)%N <-> (N.of_nat (dst alg x v) <= n)%N) /\
  ((d <= n)%N -> d = N.of_nat (dst alg x v)).
Proof.
  intros Hm Hn Hb [(_ & Hv & _) Hrep] d. pose proof (manageable_len x n Hm) as Hx.
  assert (Hmax : dst alg x v <= length x + length v).
  { pose proof (dst_max alg x v). lia. }
  assert (Hsmall : (N.of_nat (dst alg x v) < SIZE_MAX)%N).
  { unfold SIZE_MAX, LEN_MAX, small_depth in *. lia. }
  assert (Hd : forall k, (N.of_nat k <= n)%N -> (N.of_nat k < SIZE_MAX)%N ->
                 ((d <= N.of_nat k)%N <-> dst alg x v <= k)).
  { intros k Hk Hk'. unfold d. rewrite (distance_spec alg x n (length v) st k Hx Hb Hv Hk').
    rewrite <- Hrep by auto. now rewrite app_nil_r. }
  assert (Himp : (N.of_nat (dst alg x v) <= n)%N -> d = N.of_nat (dst alg x v)).
  { intros Hle. assert (H1 : (d <= N.of_nat (dst alg x v))%N) by (apply Hd; auto).
    assert (H2 : dst alg x v <= N.to_nat d) by (apply Hd; lia). lia. }
  assert (Hback : (d <= n)%N -> (N.of_nat (dst alg x v) <= n)%N).
  { intros Hle. destruct (N.lt_ge_cases d SIZE_MAX) as [L|L].
    - assert (H2 : dst alg x v <= N.to_nat d) by (apply Hd; lia). lia.
    - lia. }
  repeat split; auto. intros H; rewrite Himp; auto.
Qed.
