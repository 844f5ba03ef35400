(** * Properties C64, C65: the memory and the work a query takes. *)
From Coq Require Import Sorting.Sorted Sorting.Permutation.
From Verif Require Import Base Spec SpecTransducer PropsDawg PropsQuery ModelTransducer ModelDawg ModelSerial ModelQuery SpecDawg SpecQuery SpecBounds
  AlignProofs TransProofs StateProofs ReadProofs TreeProofs HeapProofs IterProofs DawgProofs QueryProofs QueryFacts BoundProofs.
Local Open Scope nat_scope.

(** ** C64: the states of a query stay small, however long the query is. *)
Theorem C64_state_size : forall alg x n v st,
  manageable x n -> (n <= SIZE_MAX)%N -> (N.of_nat (length v) < 2 ^ 62)%N ->
  SpecTransducer.read alg x n [Pos 0 0 false] v = Ok (Some st) ->
  NoDup st /\
  (forall p, In p st -> (ti p <= N.of_nat (length x) /\ ne p <= n /\
     N.of_nat (length v) <= ti p + ne p /\ ti p <= N.of_nat (length v) + ne p)%N) /\
  (N.of_nat (length st) <= match alg with STANDARD => (n + 1) ^ 2 | _ => (n + 1) ^ 2 + n ^ 2 end)%N.
Proof.
  intros alg x n v st Hx Hn Hv E.
  destruct (read_initial alg x n v Hx Hn Hv) as (o & E' & H). assert (X : Ok (Some st) = Ok o) by (rewrite <- E'; symmetry; exact E). injection X as <-.
  destruct H as [(_ & V & _) _].
  assert (D : NoDup (map (key alg) st)). { eapply read_distinct; [|exact E]. repeat constructor. intros []. }
  destruct (state_size _ _ _ _ _ V D) as [D' L]. split; auto. split.
  - intros p I. rewrite Forall_forall in V. destruct (V p I) as (V1 & V2 & V3 & V4). unfold ii, ee in *. destruct (sp p); lia.
  - unfold most in L. rewrite !N.pow_2_r. destruct alg; lia.
Qed.
Print Assumptions C64_state_size.

Example C64_case : exists st, SpecTransducer.read TRANSPOSITION (lit "abababababab") 2 [Pos 0 0 false] (lit "bba") = Ok (Some st) /\
  length st = 6 /\ forall p, In p st -> (1 <= ti p <= 5)%N.
Proof.
  eexists. split; [vm_compute; reflexivity|]. split; [reflexivity|].
  intros p I. repeat (destruct I as [<-|I]; [cbn; lia|]). destruct I.
Qed.

(** ** C65: what a query looks at. *)
Lemma small_terms : forall terms q n, within_limits terms q n -> exists B, small_depth B /\ height (trie terms) <= S B.
Proof.
  intros terms q n (_ & _ & Lt). destruct (longest terms small_depth) as (B & SB & HB). { unfold small_depth; lia. } { exact Lt. }
  exists B. split; auto. apply trie_height; auto.
Qed.

Lemma words_full : forall t, words (full t) = [] :: remaining [] [] [([], full t)].
Proof.
  intros [f es]. unfold words, remaining. cbn [full]. rewrite enum_cons. cbn [children map app flat_map kids fst snd tedges].
  rewrite app_nil_r. reflexivity.
Qed.

Lemma ahead_sorted : forall alg q n t, tsorted t -> StronglySorted shortlex_lt (ahead alg q n [] [] [([], t)]).
Proof.
  intros alg q n t S. pose proof (words_sorted _ (full_sorted _ S)) as W. rewrite words_full in W. inversion W as [|? ? W' _]; subst.
  unfold ahead. cbn [fulls fullq map fst snd]. clear -W'. induction W' as [|a l S IH F]; cbn; [constructor|].
  destruct (worth alg q n a); auto. constructor; auto. rewrite Forall_forall in *. intros x I. apply filter_In in I. apply F, I.
Qed.

Lemma ahead_In : forall alg terms q n w, within_limits terms q n ->
  (In w (ahead alg q n [] [] [([], trie terms)]) <-> worth_trying alg terms q n w).
Proof.
  intros alg terms q n w (Lq & Ln & Lt). unfold ahead. cbn [fulls fullq map fst snd]. rewrite filter_In.
  pose proof (full_sorted _ (trie_sorted terms)) as So.
  pose proof (words_sorted _ So) as W. rewrite words_full in W.
  pose proof (StronglySorted_NoDup _ _ shortlex_irrefl W) as ND. inversion ND as [|? ? N0 _]; subst.
  assert (E : In w (remaining [] [] [([], full (trie terms))]) <-> w <> [] /\ exists u, In (w ++ u) terms).
  { destruct w as [|c w]; [tauto|]. rewrite <- tin_full_trie, <- words_In, words_full by auto. cbn. intuition congruence. }
  rewrite E. unfold worth, worth_trying. split.
  - intros ((Ne & u & I) & A). destruct (exists_last Ne) as (v & c & ->). rewrite removelast_last in A.
    apply alive_spec in A; auto.
    + destruct A as (z & L). exists v, c, u, z, (dst alg q (v ++ z)). repeat split; auto. apply edit_distance_dst; auto.
    + specialize (Lt _ I). unfold small_depth. rewrite !app_length in Lt. lia.
  - intros (v & c & u & z & k & -> & I & D & L). apply edit_distance_dst in D. subst k.
    split; [split; [intros X; destruct v; discriminate|eauto]|]. rewrite removelast_last. apply alive_spec; auto; eauto.
    specialize (Lt _ I). unfold small_depth. rewrite !app_length in Lt. lia.
Qed.

Lemma sorted_app_last : forall (l : list str) w F, StronglySorted shortlex_lt ((l ++ [w]) ++ F) ->
  StronglySorted shortlex_lt (l ++ [w]) /\
  forall v, In v (l ++ [w]) <-> In v ((l ++ [w]) ++ F) /\ (v = w \/ shortlex_lt v w).
Proof.
  intros l w F S. rewrite <- app_assoc in *. cbn [app] in *. split.
  - clear -S. induction l as [|a l IH]; cbn in *; inversion S as [|? ? S' Fo]; subst; [repeat constructor|]. constructor; auto.
    apply Forall_forall. rewrite Forall_forall in Fo. intros x I. apply Fo. apply in_app_iff in I. apply in_app_iff.
    destruct I as [I|[<-|[]]]; cbn; auto.
  - intros v. rewrite !in_app_iff. cbn [In].
    assert (A : forall v, In v l -> shortlex_lt v w).
    { clear -S. induction l as [|a l IH]; intros v I; [destruct I|]. cbn in S. inversion S as [|? ? S' Fo]; subst.
      destruct I as [<-|I]; auto. rewrite Forall_forall in Fo. apply Fo. apply in_app_iff. cbn. auto. }
    assert (C : forall v, In v F -> shortlex_lt w v).
    { clear -S. induction l as [|a l IH]; cbn in *; inversion S as [|? ? S' Fo]; subst; auto. rewrite Forall_forall in Fo. auto. }
    split.
    + intros [I|[<-|[]]]; auto.
    + intros [[I|[<-|I]] X]; auto. exfalso. specialize (C v I). destruct X as [->|X].
      * eapply shortlex_irrefl; eauto.
      * eapply shortlex_irrefl, shortlex_trans; eauto.
Qed.

Theorem C65_work : forall R (rt : result_type R) alg terms h d q n k results,
  dictionary terms h d -> within_limits terms q n -> yields as_candidate alg h d q n results ->
  exists log it, works rt alg h d q n k log it /\ stands_at rt alg h d q n k it /\ sorted_by shortlex_lt log /\
    forall w, In w log <-> worth_trying alg terms q n w /\
      match nth_error results k with
      | Some (found, _) => w = found \/ shortlex_lt w found
      | None => True
      end.
Proof.
  intros R rt alg terms h d q n k results D L Y.
  pose proof (yields_det _ _ _ _ _ _ _ _ _ Y (candidates_main _ _ _ _ _ _ D L)) as ->.
  destruct (dictionary_unf _ _ _ D) as (U & _). destruct (small_terms _ _ _ L) as (B & SB & HB).
  pose proof L as (Lq & Ln & Lt).
  destruct (log_after_ok rt h alg q n B Lq Ln SB (d_root d) (trie terms) U HB k) as (M & H). cbv zeta in H.
  destruct (H (S M) ltac:(lia)) as (log & it & E & X).
  assert (Wk : forall fuel, S M <= fuel -> log_after rt fuel h (new_transducer alg (d_root d)) q n k = Ok (log, it)).
  { intros fuel Hf. eapply log_after_mono; eauto. }
  exists log, it. split; [exists (S M); exact Wk|]. split.
  { exists (S M). intros fuel Hf. rewrite log_after_erase, Wk by auto. reflexivity. }
  pose proof (ahead_sorted alg q n _ (trie_sorted terms)) as S.
  unfold scored, found. rewrite nth_error_map.
  destruct (nth_error (filter _ (words (trie terms))) k) as [w0|] eqn:N0; cbn [option_map].
  - destruct X as [[-> ->]|(l & F & -> & EF)].
    + split; [constructor|]. intros w. split; [intros []|]. intros ((v & c & u & z & k' & -> & _) & [X|X]).
      * destruct v; discriminate.
      * destruct X as [X|[X _]]; rewrite app_length in X; cbn in X; lia.
    + rewrite EF in S. destruct (sorted_app_last _ _ _ S) as [S1 S2]. split; [apply StronglySorted_sorted_by; auto|].
      intros w. rewrite S2, <- EF, ahead_In by auto. reflexivity.
  - subst log. split; [apply StronglySorted_sorted_by; auto|].
    intros w. rewrite ahead_In by auto. tauto.
Qed.
Print Assumptions C65_work.

(** At most one StateTransition per character of the dictionary. *)
Theorem C65_bound : forall R (rt : result_type R) alg terms h d q n k log it,
  dictionary terms h d -> within_limits terms q n -> works rt alg h d q n k log it ->
  length log <= length (concat terms).
Proof.
  intros R rt alg terms h d q n k log it D L Wk.
  destruct (C65_work R rt alg terms h d q n k _ D L (candidates_main _ _ _ _ _ _ D L)) as (log' & it' & Wk' & _ & S & H).
  pose proof (runs_to_det _ _ _ _ Wk Wk') as E. injection E as <- <-.
  apply sorted_by_StronglySorted in S; [|exact shortlex_trans]. apply StronglySorted_NoDup in S; [|exact shortlex_irrefl].
  assert (E : length (concat terms) = length (flat_map (fun t => map (fun i => firstn (Datatypes.S i) t) (seq 0 (length t))) terms)).
  { clear. induction terms as [|t terms IH]; auto. cbn [concat flat_map]. rewrite !app_length, map_length, seq_length. lia. }
  rewrite E. apply NoDup_incl_length; auto. intros w I. apply H in I. destruct I as ((v & c & u & z & k' & -> & I & _) & _).
  apply in_flat_map. exists ((v ++ [c]) ++ u). split; auto. apply in_map_iff. exists (length v). split.
  - replace (Datatypes.S (length v)) with (length (v ++ [c])) by (rewrite app_length; cbn; lia).
    rewrite firstn_app, Nat.sub_diag, firstn_all. cbn. apply app_nil_r.
  - apply in_seq. rewrite !app_length. cbn. lia.
Qed.
Print Assumptions C65_bound.

(** "cat" with distance 2 and the terms "a", "ab", "cab", "cb": when "ab" has been
    found, "cab" and "cb" have not been looked at.  "catalog" with distance 0:
    nothing beyond the first letters and "ca", "cb", "cab" is. *)
Example C65_case : exists it, works as_string STANDARD example_heap example_dawg cat 2 1 [lit "a"; lit "c"; lit "ab"] it /\
  q_candidate it = lit "ab".
Proof.
  eexists. split.
  - exists 30. intros fuel H. do 30 (destruct fuel as [|fuel]; [exfalso; lia|]). clear H. vm_compute. reflexivity.
  - reflexivity.
Qed.

Example C65_case_pruned : exists it,
  works as_string STANDARD example_heap example_dawg (lit "catalog") 0 5 [lit "a"; lit "c"; lit "ca"; lit "cb"; lit "cab"] it /\
  q_complete it = true.
Proof.
  eexists. split.
  - exists 30. intros fuel H. do 30 (destruct fuel as [|fuel]; [exfalso; lia|]). clear H. vm_compute. reflexivity.
  - reflexivity.
Qed.
