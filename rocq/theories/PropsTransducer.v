(** * Properties C41-C45, C47: positions and states of the transducer. *)
From Verif Require Import Base Spec SpecTransducer AlignProofs TransProofs StateProofs SubsumeProofs ReadProofs.
Local Open Scope nat_scope.

Lemma compare_position_le alg p q : (compare alg p q < 1)%Z <-> position_le alg p q.
Proof.
  rewrite compare_le. unfold position_le, flag.
  destruct alg, (sp p), (sp q); cbn [Bool.le]; intuition (try discriminate).
Qed.

(** C41: State::sort terminates and is a stable sort by (index, errors, special). *)
Theorem C41_sort : forall alg (l : state),
  exists s, sort (compare alg) l = Ok s /\ Permutation l s /\ StronglySorted (position_le alg) s /\
    forall q, filter (fun p => Z.eqb (compare alg p q) 0) s = filter (fun p => Z.eqb (compare alg p q) 0) l.
Proof.
  intros alg l. destruct (sort_compare_ok alg l) as (s & H1 & H2 & H3 & H4).
  exists s; repeat split; auto.
  clear -H3. induction H3 as [|p s Hs IH Hf]; constructor; auto.
  rewrite Forall_forall in *. intros q Hq. apply compare_position_le. now apply Hf.
Qed.
Print Assumptions C41_sort.

Example C41_case :
  sort (compare TRANSPOSITION) [Pos 2 1 false; Pos 0 1 true; Pos 0 1 false; Pos 1 0 false] =
  Ok [Pos 0 1 false; Pos 0 1 true; Pos 1 0 false; Pos 2 1 false].
Proof. reflexivity. Qed.

(** C42: merge makes the union, without duplicates, in descending order. *)
Lemma before_gt alg p q : merge_before alg q p = true <-> position_gt alg p q.
Proof.
  unfold merge_before, position_gt, flag. destruct alg, (sp p), (sp q); cbn [negb andb]; lia.
Qed.

Lemma key_same alg p q : key alg p = key alg q <-> same_position alg p q.
Proof.
  unfold key, same_position, flag. split.
  - intros H; injection H; auto.
  - intros (-> & -> & H). destruct alg; congruence.
Qed.

Lemma merged_gt alg st : merged alg st <-> StronglySorted (position_gt alg) st.
Proof.
  unfold merged. split; induction 1 as [|p st Hs IH Hf]; constructor; auto;
    rewrite Forall_forall in *; intros q Hq; apply before_gt; auto.
Qed.

Theorem C42_merge : forall alg st ps, StronglySorted (position_gt alg) st ->
  StronglySorted (position_gt alg) (merge alg st ps) /\
  (forall p, In p (merge alg st ps) -> In p st \/ In p ps) /\
  (forall p, In p st \/ In p ps -> exists q, In q (merge alg st ps) /\ same_position alg p q) /\
  (forall i j p q, nth_error (merge alg st ps) i = Some p -> nth_error (merge alg st ps) j = Some q ->
     same_position alg p q -> i = j).
Proof.
  intros alg st ps H. apply merged_gt in H. pose proof (merge_merged alg ps st H) as Hm.
  repeat split.
  - now apply merged_gt.
  - apply merge_in.
  - intros p Hp. assert (Hk : In (key alg p) (map (key alg) (merge alg st ps))).
    { apply merge_keys. destruct Hp; [left|right]; now apply in_map. }
    apply in_map_iff in Hk. destruct Hk as (q & E & Hq). exists q; split; auto. apply key_same; auto.
  - intros i j p q Hi Hj Hs. apply merged_nodup in Hm.
    apply key_same in Hs. apply map_nth_error with (f := key alg) in Hi, Hj.
    apply (NoDup_nth_error (map (key alg) (merge alg st ps))) ; auto.
    + apply nth_error_Some. congruence.
    + rewrite Hi, Hj. congruence.
Qed.
Print Assumptions C42_merge.

Example C42_case :
  merge TRANSPOSITION (merge TRANSPOSITION [] [Pos 0 1 false; Pos 0 1 true; Pos 1 1 false; Pos 2 1 false])
        [Pos 1 1 false; Pos 1 2 false; Pos 2 1 true] =
  [Pos 1 2 false; Pos 2 1 true; Pos 2 1 false; Pos 1 1 false; Pos 0 1 true; Pos 0 1 false].
Proof. reflexivity. Qed.

(** C43: what unsubsume removes. *)
Theorem C43_unsubsume_ascending : forall alg n l,
  StronglySorted (fun p q => (ne p <= ne q)%N) l ->
  exists keep, unsubsume alg n l = filter keep l /\
    forall p, In p l -> (keep p = false <->
      exists q, In q l /\ keep q = true /\ (ne q < ne p)%N /\ subsumes alg q p n = true).
Proof. exact unsubsume_asc. Qed.
Print Assumptions C43_unsubsume_ascending.

Example C43_case : unsubsume STANDARD 2 [Pos 1 1 false; Pos 1 2 false; Pos 2 2 false; Pos 4 2 false] =
  [Pos 1 1 false; Pos 4 2 false].
Proof. reflexivity. Qed.

Theorem C43_unsubsume_after_merge : forall alg n l, StronglySorted (position_gt alg) l ->
  unsubsume alg n l = l.
Proof. intros alg n l H. apply unsubsume_noop. now apply merged_gt. Qed.
Print Assumptions C43_unsubsume_after_merge.

(** The documented purpose, that subsumed positions are removed from states, is
    not met by the states that StateTransition returns. *)
Theorem C43_states_without_subsumed_refuted :
  exists x n v st p q, read STANDARD x n [Pos 0 0 false] v = Ok (Some st) /\ In p st /\ In q st /\
    p <> q /\ (ne p < ne q)%N /\ subsumes STANDARD p q n = true.
Proof.
  exists (lit "ab"), 2%N, (lit "ba"), [Pos 1 1 false; Pos 1 2 false; Pos 2 2 false],
    (Pos 1 1 false), (Pos 1 2 false).
  repeat split; try (vm_compute; reflexivity); simpl; auto. discriminate.
Qed.
Print Assumptions C43_states_without_subsumed_refuted.

(** C44: what subsumes decides. *)
Theorem C44_subsumes : forall alg x n l r u nn, fits l -> fits r -> (ne l < ne r)%N ->
  subsumes alg l r nn = true -> accepts alg x n r u ->
  (flag alg l = false /\ flag alg r = false) \/
  (flag alg l = true /\ flag alg r = true /\ N.to_nat (ti l) < length x) \/
  (alg = MERGE_AND_SPLIT /\ flag alg l = false) ->
  accepts alg x n l u.
Proof.
  intros alg x n l r u nn Hl Hr Hlt Hs Ha [[F1 F2]|[(F1 & F2 & F3)|[-> F1]]].
  - eapply subsumes_ordinary; eauto.
  - eapply subsumes_special_both; eauto.
  - destruct (flag MERGE_AND_SPLIT r) eqn:F2.
    + eapply subsumes_split; eauto.
    + eapply subsumes_ordinary; eauto.
Qed.
Print Assumptions C44_subsumes.

Example C44_case : subsumes MERGE_AND_SPLIT (Pos 1 0 false) (Pos 2 1 true) 2 = true /\
  accepts MERGE_AND_SPLIT (lit "abcd") 2 (Pos 2 1 true) (lit "xde").
Proof.
  split; [reflexivity|]. split; [cbn [ne ti]; lia|]. cbn. exists "c"%char, (lit "d"), "x"%char, (lit "de").
  repeat split; auto. exists 1. split; [vm_compute; auto|]. apply al_equal. apply al_insert. apply al_nil.
Qed.

Lemma not_within alg k v w : k < dst alg v w -> ~ within alg k v w.
Proof. intros H H'. change (cost_le alg k v w) in H'. apply dst_le in H'. lia. Qed.

(** For ordinary positions the answer is exact: when it is false, there are a
    query and a continuation that only [r] accepts. *)
Theorem C44_complete : forall alg l r n nn, fits l -> fits r -> (ne l < ne r)%N -> N.to_nat (ne r) <= n ->
  flag alg l = false -> flag alg r = false -> subsumes alg l r nn = false ->
  exists x u, N.to_nat (ti l) <= length x /\ N.to_nat (ti r) <= length x /\
    accepts alg x n r u /\ ~ accepts alg x n l u.
Proof.
  intros alg [i e s] [j f t] n nn [Fi Fe] [Fj Ff] Hlt Hn Fl Fr Hs. cbn [ti ne sp] in *.
  assert (Hd : (f - e < i - j \/ f - e < j - i)%N).
  { assert (Hs' : (abs_diff i j <=? wsub f e = false)%N).
    { unfold subsumes in Hs. cbn [ti ne sp] in Hs. unfold flag in Fl, Fr. cbn [sp] in Fl, Fr.
      destruct alg; [exact Hs|subst s; exact Hs|subst s; exact Hs]. }
    apply N.leb_gt in Hs'. rewrite wsub_small in Hs' by (auto; lia).
    pose proof (abs_diff_spec i j Fi Fj). lia. }
  set (c := Ascii.zero). set (i' := N.to_nat i). set (j' := N.to_nat j). set (e' := N.to_nat e). set (f' := N.to_nat f).
  set (len := i' + j' + n).
  assert (A : forall k, skipn k (repeat c len) = repeat c (len - k)) by (intros; apply skipn_repeat).
  destruct Hd as [Hd|Hd].
  - exists (repeat c len), (skipn j' (repeat c len) ++ repeat c (n - f')). rewrite repeat_length.
    split; [lia|]. split; [lia|]. split.
    + split; cbn [ti ne]; [lia|]. rewrite Fr. exists (n - f'). split; [lia|]. apply aligned_tail.
    + intros [_ H]. rewrite Fl in H. cbn [ti ne] in H. destruct H as (m & Hm & H). apply aligned_length in H.
      fold i' e' in H, Hm. rewrite !A, app_length, !repeat_length in H. lia.
  - exists (repeat c len), (skipn (j' + (n - f')) (repeat c len)). rewrite repeat_length.
    split; [lia|]. split; [lia|]. split.
    + split; cbn [ti ne]; [lia|]. rewrite Fr. exists (n - f'). split; [lia|]. fold j'.
      rewrite !A. replace (len - j') with ((n - f') + (len - (j' + (n - f')))) by lia.
      rewrite repeat_app. apply aligned_drop.
    + intros [_ H]. rewrite Fl in H. cbn [ti ne] in H. destruct H as (m & Hm & H). apply aligned_length in H.
      fold i' e' in H, Hm. rewrite !A, !repeat_length in H. lia.
Qed.
Print Assumptions C44_complete.

Example C44_complete_case : subsumes STANDARD (Pos 3 0 false) (Pos 1 1 false) 3 = false /\
  accepts STANDARD (lit "aaa") 1 (Pos 1 1 false) (lit "aa") /\ ~ accepts STANDARD (lit "aaa") 1 (Pos 3 0 false) (lit "aa").
Proof.
  split; [reflexivity|]. split.
  - split; [cbn [ne ti]; lia|]. cbn. exists 0. split; [lia|]. apply aligned_refl.
  - unfold accepts; cbn. intros [_ H]. revert H. apply not_within. apply Nat.ltb_lt. vm_compute. reflexivity.
Qed.

(** In the remaining cases the inclusion fails. *)
Theorem C44_ordinary_special_swap_refuted :
  exists x n l r u nn, sp l = false /\ sp r = true /\ (ne l < ne r)%N /\
    subsumes TRANSPOSITION l r nn = true /\
    accepts TRANSPOSITION x n r u /\ ~ accepts TRANSPOSITION x n l u.
Proof.
  exists (lit "xab"), 1, (Pos 0 0 false), (Pos 1 1 true), (lit "a"), 3%N. repeat split.
  - cbn [ne ti]; lia.
  - cbn. exists "a"%char, "b"%char, [], []. repeat split; auto. exists 0; split; [lia|constructor].
  - unfold accepts; cbn. intros [_ H]. revert H. apply not_within. apply Nat.ltb_lt. vm_compute. reflexivity.
Qed.
Print Assumptions C44_ordinary_special_swap_refuted.

Theorem C44_special_ordinary_swap_refuted :
  exists x n l r u nn, sp l = true /\ sp r = false /\ (ne l < ne r)%N /\
    subsumes TRANSPOSITION l r nn = true /\
    accepts TRANSPOSITION x n r u /\ ~ accepts TRANSPOSITION x n l u.
Proof.
  exists (lit "ab"), 4, (Pos 0 1 true), (Pos 0 2 false), [], 2%N. repeat split.
  - cbn [ne ti]; lia.
  - cbn. exists 2. split; [vm_compute; auto|]. do 2 apply al_delete. apply al_nil.
  - unfold accepts; cbn. intros (_ & c1 & c2 & y & u' & _ & H & _). discriminate.
Qed.
Print Assumptions C44_special_ordinary_swap_refuted.

Theorem C44_special_ordinary_split_refuted :
  exists x n l r u nn, sp l = true /\ sp r = false /\ (ne l < ne r)%N /\
    subsumes MERGE_AND_SPLIT l r nn = true /\
    accepts MERGE_AND_SPLIT x n r u /\ ~ accepts MERGE_AND_SPLIT x n l u.
Proof.
  exists (lit "ab"), 4, (Pos 0 1 true), (Pos 0 2 false), [], 2%N. repeat split.
  - cbn [ne ti]; lia.
  - cbn. exists 2. split; [vm_compute; auto|]. do 2 apply al_delete. apply al_nil.
  - unfold accepts; cbn. intros (_ & c1 & y & c & u' & _ & H & _). discriminate.
Qed.
Print Assumptions C44_special_ordinary_split_refuted.

(** With fewer errors on the right the unsigned subtraction wraps: the answer
    is true unless the indices are astronomically far apart. *)
Theorem C44_wrap_around : forall l r nn, fits l -> fits r -> (ne r < ne l)%N ->
  (subsumes STANDARD l r nn = true <-> (Z.abs (Z.of_N (ti l) - Z.of_N (ti r)) <= 2 ^ 64 - (Z.of_N (ne l) - Z.of_N (ne r)))%Z).
Proof. exact subsumes_wraps. Qed.
Print Assumptions C44_wrap_around.

Example C44_wrap_case : subsumes STANDARD (Pos 0 3 false) (Pos 9 1 false) 3 = true.
Proof. reflexivity. Qed.

(** C45: compare is a total order on the fields in use. *)
Theorem C45_compare : forall alg,
  (forall p q, compare alg p q = 0%Z <-> same_position alg p q) /\
  (forall p q, Z.sgn (compare alg p q) = (- Z.sgn (compare alg q p))%Z) /\
  (forall p q r, (compare alg p q < 0)%Z -> (compare alg q r < 0)%Z -> (compare alg p r < 0)%Z) /\
  (forall p q, (compare alg p q <= 0)%Z <-> position_le alg p q).
Proof.
  intros alg. repeat split.
  - unfold compare in H; destruct (N.ltb_spec (ti p) (ti q)), (N.ltb_spec (ti q) (ti p)), (N.ltb_spec (ne p) (ne q)),
      (N.ltb_spec (ne q) (ne p)), alg, (sp p), (sp q); cbn [Z.b2z] in H; lia.
  - unfold compare in H; destruct (N.ltb_spec (ti p) (ti q)), (N.ltb_spec (ti q) (ti p)), (N.ltb_spec (ne p) (ne q)),
      (N.ltb_spec (ne q) (ne p)), alg, (sp p), (sp q); cbn [Z.b2z] in H; lia.
  - unfold compare in H; unfold flag; destruct (N.ltb_spec (ti p) (ti q)), (N.ltb_spec (ti q) (ti p)), (N.ltb_spec (ne p) (ne q)),
      (N.ltb_spec (ne q) (ne p)), alg, (sp p), (sp q); cbn [Z.b2z] in H; auto; lia.
  - intros (E1 & E2 & E3). unfold compare. rewrite E1, E2, !N.ltb_irrefl.
    unfold flag in E3. destruct alg; auto; rewrite E3; lia.
  - intros p q. unfold compare.
    destruct (N.ltb_spec (ti p) (ti q)), (N.ltb_spec (ti q) (ti p)), (N.ltb_spec (ne p) (ne q)),
      (N.ltb_spec (ne q) (ne p)), alg, (sp p), (sp q); try lia; reflexivity.
  - intros p q r. unfold compare.
    destruct (N.ltb_spec (ti p) (ti q)), (N.ltb_spec (ti q) (ti p)), (N.ltb_spec (ne p) (ne q)),
      (N.ltb_spec (ne q) (ne p)); intros K1; try lia;
    destruct (N.ltb_spec (ti q) (ti r)), (N.ltb_spec (ti r) (ti q)), (N.ltb_spec (ne q) (ne r)),
      (N.ltb_spec (ne r) (ne q)); intros K2; try lia;
    destruct (N.ltb_spec (ti p) (ti r)), (N.ltb_spec (ti r) (ti p)), (N.ltb_spec (ne p) (ne r)),
      (N.ltb_spec (ne r) (ne p)); try lia; destruct alg, (sp p), (sp q), (sp r); cbn [Z.b2z] in *; lia.
  - intros H. apply compare_position_le. lia.
  - intros H. apply compare_position_le in H. lia.
Qed.
Print Assumptions C45_compare.

Example C45_case : compare TRANSPOSITION (Pos 3 1 false) (Pos 3 1 true) = (-1)%Z /\
  compare STANDARD (Pos 3 1 false) (Pos 2 7 false) = 1%Z.
Proof. split; reflexivity. Qed.

(** C47: a prefix is abandoned exactly when no string extending it is close
    enough, and otherwise the state accepts exactly the close enough
    extensions. *)
Theorem C47_pruning_exact : forall alg x n v,
  manageable x n -> (n <= SIZE_MAX)%N -> (N.of_nat (length v) < 2 ^ 62)%N ->
  exists o, read alg x n [Pos 0 0 false] v = Ok o /\
  (o = None <-> forall u d, edit_distance alg x (v ++ u) d -> (n < N.of_nat d)%N) /\
  (forall st, o = Some st -> forall u k, (N.of_nat k <= n)%N ->
     ((exists p, In p st /\ accepts alg x k p u) <-> exists d, edit_distance alg x (v ++ u) d /\ d <= k)).
Proof.
  intros alg x n v Hx Hn Hv. destruct (read_initial alg x n v Hx Hn Hv) as (o & Ho & H).
  exists o; split; auto. destruct o as [st|].
  - split.
    + split; [discriminate|]. intros H'. exfalso. destruct (represents_lives _ _ _ _ _ H) as (u & Hu).
      specialize (H' u _ (proj2 (edit_distance_dst alg x (v ++ u) _) eq_refl)). lia.
    + intros st' E u k Hk. injection E as <-. destruct H as [(_ & Hva & _) Hrep].
      rewrite Forall_forall in Hva. specialize (Hrep u k Hk). split.
      * intros (p & Hp & Hacc). exists (dst alg x (v ++ u)). split; [now apply edit_distance_dst|].
        apply Hrep. exists p; split; auto. eapply acc_accepts; eauto.
      * intros (d & Hd & Hle). apply edit_distance_dst in Hd; subst d. apply Hrep in Hle.
        destruct Hle as (p & Hp & Hacc). exists p; split; auto. eapply acc_accepts; eauto.
  - split; [|discriminate]. split; auto. intros _ u d Hd. apply edit_distance_dst in Hd; subst d. apply H.
Qed.
Print Assumptions C47_pruning_exact.

Example C47_case :
  read STANDARD (lit "abc") 1 [Pos 0 0 false] (lit "xy") = Ok None /\
  read TRANSPOSITION (lit "abc") 1 [Pos 0 0 false] (lit "b") =
    Ok (Some [Pos 0 1 false; Pos 0 1 true; Pos 1 1 false; Pos 2 1 false]).
Proof. split; reflexivity. Qed.
