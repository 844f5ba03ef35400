(** * TestsDawg: the tests about dictionaries, distances, transducers and files pass. *)
From Coq Require Import Permutation Sorted.
From Verif Require Import Base Spec ModelDistance ModelHash ModelTransducer ModelDawg ModelQuery ModelSerial ModelWire.
From Verif Require Import SpecDistance SpecDawg SpecQuery SpecSerial SpecWire.
From Verif Require Import AlignProofs DistProofs DistFacts TreeProofs HeapProofs IterProofs BuildProofs2 DawgProofs SerialProofs
  QueryProofs QueryFacts WireProofs FileProofs PropsDawg PropsQuery PropsSerial PropsWire ModelTests.
Local Open Scope nat_scope.

(** ** Sets of strings *)
Lemma has_In : forall x s, has x s = true <-> In x s.
Proof.
  intros x s. unfold has. rewrite existsb_exists. split.
  - intros (y & I & E). apply str_eqb_eq in E. now subst.
  - intros I. exists x. split; auto. now apply str_eqb_eq.
Qed.

Lemma erase_In : forall x s y, In y (erase x s) <-> In y s /\ x <> y.
Proof.
  intros x s y. unfold erase. rewrite filter_In. destruct (str_eqb x y) eqn:E; cbn.
  - apply str_eqb_eq in E. subst. intuition congruence.
  - assert (x <> y). { intros ->. rewrite (proj2 (str_eqb_eq y y) eq_refl) in E. discriminate. } intuition congruence.
Qed.

Lemma erase_NoDup : forall x s, NoDup s -> NoDup (erase x s).
Proof. intros. apply NoDup_filter. auto. Qed.

Lemma erase_all_In : forall ignored s y, In y (fold_left (fun s t => erase t s) ignored s) <-> In y s /\ ~ In y ignored.
Proof.
  induction ignored as [|t ignored IH]; intros s y; cbn [fold_left In]; [tauto|]. rewrite IH, erase_In. intuition congruence.
Qed.

Lemma ascending_sorted : forall l, strictly_ascending l <-> StronglySorted lex_lt l.
Proof.
  intros l. split.
  - intros H. apply sorted_by_StronglySorted; auto. intros; eapply lex_trans; eauto.
  - intros H. induction H as [|a l S IH F]; [constructor|]. destruct l as [|b l]; [constructor|].
    constructor; [now inversion F|exact IH].
Qed.

Lemma ascending_NoDup : forall l, strictly_ascending l -> NoDup l.
Proof. intros l H. apply ascending_sorted in H. eapply StronglySorted_NoDup with (R := lex_lt); eauto using lex_irrefl. Qed.

Lemma erase_ascending : forall x s, strictly_ascending s -> strictly_ascending (erase x s).
Proof.
  intros x s. rewrite !ascending_sorted. intros H. unfold erase. induction H as [|a l S IH F]; cbn; [constructor|].
  destruct (negb _); auto. constructor; auto. rewrite Forall_forall in *. intros y I. apply filter_In in I. apply F, I.
Qed.

Lemma erase_all_ascending : forall ignored s, strictly_ascending s -> strictly_ascending (fold_left (fun s t => erase t s) ignored s).
Proof. induction ignored; intros; cbn; auto using erase_ascending. Qed.

Lemma strictly_weakly : forall l, strictly_ascending l -> ascending l.
Proof.
  intros l H. unfold ascending. induction H; constructor; auto. now right.
Qed.

(** Every string of the list, once. *)
Lemma tick_off_ok : forall listed left, NoDup listed -> NoDup left -> (forall w, In w listed <-> In w left) ->
  tick_off listed left = Ok (Passed []).
Proof.
  induction listed as [|t listed IH]; intros left Nl Nf H; cbn [tick_off].
  - destruct left as [|x left]; auto. exfalso. apply (proj2 (H x)). now left.
  - inversion Nl as [|? ? Ni Nl']; subst. rewrite (proj2 (has_In t left)) by (apply H; now left). cbn [RC_ASSERT].
    apply IH; auto using erase_NoDup. intros w. rewrite erase_In, <- H. cbn [In]. split; [|intuition].
    intros I. split; auto. intros ->. tauto.
Qed.

(** ** Sorted dictionaries *)
Lemma is_sorted_ok : forall terms, is_sorted terms = true <-> ascending terms.
Proof.
  intros [|t terms]; cbn [is_sorted]. { split; [constructor|auto]. }
  revert t. induction terms as [|u terms IH]; intros t; cbn [is_sorted_from]. { split; [constructor|auto]. }
  unfold ascending in *. destruct (str_ltb u t) eqn:E.
  - apply str_ltb_lex in E. split; [discriminate|]. intros H. inversion H as [| |? ? ? X]; subst. apply lex_le_not_lt in X. contradiction.
  - rewrite IH. split; [intros H; constructor; auto|intros H; now inversion H].
    apply lex_le_not_lt. intros X. apply str_ltb_lex in X. congruence.
Qed.

Lemma shuffles_ok : forall shuffles terms, ascending terms -> Exists (fun s => ~ ascending s) shuffles ->
  exists s, shuffle_until_unsorted terms shuffles = Ok s /\ ~ ascending s.
Proof.
  induction shuffles as [|s shuffles IH]; intros terms A X; [inversion X|]. cbn [shuffle_until_unsorted].
  rewrite (proj2 (is_sorted_ok terms) A). destruct (ascending_dec s) as [As|As].
  - apply IH; auto. inversion X; subst; [contradiction|auto].
  - exists s. split; auto. assert (E : is_sorted s = false).
    { destruct (is_sorted s) eqn:E; auto. apply is_sorted_ok in E. contradiction. }
    destruct shuffles; cbn; rewrite E; auto.
Qed.

Lemma rejects_ok : forall alloc h terms shuffles, allocator alloc -> strictly_ascending terms ->
  Exists (fun s => ~ ascending s) shuffles ->
  exists h', runs_to (fun fuel => rejects_unsorted_terms fuel alloc h terms shuffles) (Passed h') /\ same_heap h' h.
Proof.
  intros alloc h terms shuffles A As X. unfold rejects_unsorted_terms. destruct (negb _).
  { exists h. split; [exists 0; auto|]. intros p. auto. }
  destruct (shuffles_ok shuffles terms (strictly_weakly _ As) X) as (s & -> & Ns). cbn [rbind].
  destruct (C12_sorted_dawg alloc h s A) as (h1 & r & (B & R) & I & S). destruct r as [b|].
  { exfalso. apply Ns, I. discriminate. }
  exists h1. split; auto. exists B. intros fuel Hf. rewrite R by auto. reflexivity.
Qed.

Lemma expect_contains_ok : forall h d known terms expected,
  (forall t, In t terms -> contains h d t = Ok expected) -> known = terms -> expect_contains h d terms expected = Ok (Passed tt).
Proof.
  intros h d known terms expected H _. induction terms as [|t terms IH]; cbn [expect_contains]; auto.
  rewrite H by now left. cbn [rbind]. rewrite Bool.eqb_reflx. cbn [RC_ASSERT]. apply IH. intros; apply H; now right.
Qed.

Lemma contains_ok' : forall alloc h0 terms h b t, allocator alloc ->
  runs_to (fun fuel => sorted_dawg fuel alloc h0 terms) (h, Some b) -> (N.of_nat (length t) <= INT_MAX)%N ->
  contains h (b_dawg b) t = Ok (has t terms).
Proof.
  intros alloc h0 terms h b t A R L. destruct (C13_contains _ _ _ _ _ t A R L) as (r & E & I). rewrite E. f_equal.
  apply Bool.eq_iff_eq_true. now rewrite has_In.
Qed.

Lemma expected_ok : forall alloc h0 to_add to_ignore, allocator alloc -> strictly_ascending to_add ->
  (N.of_nat (length to_add) < 2 ^ 64)%N -> (forall t, In t to_add \/ In t to_ignore -> (N.of_nat (length t) <= INT_MAX)%N) ->
  exists h', runs_to (fun fuel => contains_expected_terms fuel alloc h0 to_add to_ignore) (Passed h') /\ same_heap h' h0.
Proof.
  intros alloc h0 to_add to_ignore A As Ln Lt. unfold contains_expected_terms.
  set (terms := fold_left _ to_ignore to_add). pose proof (erase_all_ascending to_ignore to_add As) as St. fold terms in St.
  assert (It : forall t, In t terms <-> In t to_add /\ ~ In t to_ignore) by (intros; apply erase_all_In).
  assert (Ll : length terms <= length to_add).
  { apply NoDup_incl_length; [apply ascending_NoDup; auto|]. intros t I. apply It in I. tauto. }
  destruct (C12_sorted_dawg alloc h0 terms A) as (h1 & r & R & I & _).
  destruct r as [b|]; [|exfalso; apply (proj2 I (strictly_weakly _ St)); reflexivity].
  pose proof (fun t => contains_ok' alloc h0 terms h1 b t A R) as C.
  destruct (C15_iterate alloc h0 terms h1 b A St ltac:(lia) R) as (listed & (B2 & E2) & P & _).
  destruct (C18_sorted_dawg alloc h0 terms h1 b A R) as (h2 & (B3 & E3) & S).
  exists h2. split; auto. destruct R as (B1 & R). exists (B1 + B2 + B3). intros fuel Hf. rewrite R by lia. cbn [rbind].
  replace (if has [] terms then Ok (Passed tt) else expect_contains h1 (b_dawg b) [[]] false) with (Ok (Passed tt) : res (verdict unit)).
  2:{ destruct (has [] terms) eqn:E; auto. symmetry. apply expect_contains_ok with (known := [[]]); auto.
      intros t [<-|[]]. rewrite C by (cbn; lia). now rewrite E. }
  cbn [followed_by rbind]. rewrite (expect_contains_ok h1 (b_dawg b) terms terms true); auto.
  2:{ intros t Hi. rewrite C by (apply It in Hi; apply Lt; tauto). now rewrite (proj2 (has_In t terms)). }
  cbn [followed_by rbind]. rewrite (expect_contains_ok h1 (b_dawg b) to_ignore to_ignore false); auto.
  2:{ intros t Hi. rewrite C by (apply Lt; tauto). f_equal. destruct (has t terms) eqn:E; auto. apply has_In, It in E. tauto. }
  cbn [followed_by rbind]. rewrite E2 by lia. cbn [rbind].
  rewrite tick_off_ok.
  - cbn [followed_by rbind nothing RC_ASSERT]. rewrite E3 by lia. reflexivity.
  - eapply Permutation_NoDup; [symmetry; exact P|]. apply ascending_NoDup; auto.
  - apply ascending_NoDup; auto.
  - intros w. split; apply Permutation_in; [exact P|symmetry; exact P].
Qed.

(** ** Distances *)
Lemma good_both : forall alg A B (Q : A -> Prop) (R : B -> Prop) n m p q o, good alg Q n p -> good alg R m q ->
  exists k, good alg (fun ab => Q (fst ab) /\ R (snd ab)) k (both o p q).
Proof.
  intros alg A B Q R n m p q o Hp Hq. destruct o; cbn [both].
  - exists (n + (m + 0)). eapply good_bind; [exact Hp|]. intros a Ha. eapply good_bind; [exact Hq|]. intros b Hb. constructor. auto.
  - exists (m + (n + 0)). eapply good_bind; [exact Hq|]. intros b Hb. eapply good_bind; [exact Hp|]. intros a Ha. constructor. auto.
Qed.

Lemma distance_test_good : forall alg t, (alg = TRANSPOSITION -> forall o1 o2 x y z, t <> Triangle_inequality o1 o2 x y z) ->
  exists k, good alg (fun b => b = true) k (distance_test_holds alg t).
Proof.
  intros alg t HT. destruct t as [x y|x y|o x y|o1 o2 x y z|o1 o2 x y z]; cbn [distance_test_holds].
  - eexists. eapply good_bind; [apply between_good|]. intros a ->. apply (good_ret _ _ 0). reflexivity.
  - eexists. eapply good_bind; [apply between_good|]. intros a ->. apply (good_ret _ _ 0).
    destruct (Nat.eqb_spec (dst alg x y) 0) as [E|]; auto. apply dst_0 in E. now apply str_eqb_eq.
  - destruct (good_both alg _ _ _ _ _ _ _ _ o (between_good alg x y) (between_good alg y x)) as (k & H).
    exists (k + 0). eapply good_bind; [exact H|]. intros [a b] [Ea Eb]. cbn [fst snd] in Ea, Eb. subst a b. constructor. apply Nat.eqb_eq, dst_sym.
  - destruct (good_both alg _ _ _ _ _ _ _ _ o2 (between_good alg x z) (between_good alg z y)) as (k & H).
    destruct (good_both alg _ _ _ _ _ _ _ _ o1 (between_good alg x y) H) as (k' & H').
    exists (k' + 0). eapply good_bind; [exact H'|]. intros [a [b c]] [Ea [Eb Ec]]. cbn [fst snd] in Ea, Eb, Ec. subst a b c. constructor. apply Nat.leb_le, dst_triangle.
    intros E. exact (HT E _ _ _ _ _ eq_refl).
  - destruct (good_both alg _ _ _ _ _ _ _ _ o1 (between_good alg (z ++ x) (z ++ y)) (between_good alg x y)) as (k & H).
    destruct (good_both alg _ _ _ _ _ _ _ _ o2 (between_good alg (x ++ z) (y ++ z)) (between_good alg x y)) as (k' & H').
    exists (k + (k' + 0)). eapply good_bind; [exact H|]. intros [a b] [Ea Eb]. cbn [fst snd] in Ea, Eb. subst a b. cbv beta iota. rewrite dst_app_l, Nat.eqb_refl.
    eapply good_bind; [exact H'|]. intros [a b] [Ea Eb]. cbn [fst snd] in Ea, Eb. subst a b. constructor. rewrite dst_app_r. apply Nat.eqb_refl.
Qed.

Lemma distance_tests_good : forall alg ts,
  (alg = TRANSPOSITION -> forall o1 o2 x y z, ~ In (Triangle_inequality o1 o2 x y z) ts) ->
  exists k, good alg (fun bs => bs = map (fun _ => true) ts) k (distance_tests_hold alg ts).
Proof.
  intros alg. induction ts as [|t ts IH]; intros HT; cbn [distance_tests_hold map].
  - exists 0. constructor. reflexivity.
  - destruct (distance_test_good alg t) as (k & H). { intros E o1 o2 x y z ->. apply (HT E o1 o2 x y z). now left. }
    destruct IH as (k' & H'). { intros E o1 o2 x y z I. apply (HT E o1 o2 x y z). now right. }
    exists (k + (k' + 0)). eapply good_bind; [exact H|]. intros b ->. eapply good_bind; [exact H'|]. intros bs ->. constructor. reflexivity.
Qed.

(** ** Transducers *)
Definition close (alg : algorithm) (n : N) (q : str) (terms : list str) : list str :=
  filter (fun t => N.of_nat (dst alg t q) <=? n)%N terms.

Lemma close_terms_ok : forall alg n q terms m, memo_ok alg m ->
  exists m', close_terms alg n q terms m = Ok (close alg n q terms, m') /\ memo_ok alg m'.
Proof.
  intros alg n q. induction terms as [|t terms IH]; intros m Hm; cbn [close_terms close filter]; [eauto|].
  destruct (good_run _ _ _ _ m (between_good alg t q) Hm) as (k & m1 & E & -> & Hm1). rewrite E. cbn [rbind].
  destruct (IH m1 Hm1) as (m2 & E2 & Hm2). rewrite E2. cbn [rbind]. exists m2. split; auto.
Qed.

Lemma all_close_ok : forall alg n terms queries m, memo_ok alg m ->
  exists m', all_close_terms alg n queries terms m = Ok (map (fun q => (q, close alg n q terms)) queries, m') /\ memo_ok alg m'.
Proof.
  intros alg n terms. induction queries as [|q queries IH]; intros m Hm; cbn [all_close_terms map]; [eauto|].
  destruct (close_terms_ok alg n q terms m Hm) as (m1 & E1 & Hm1). rewrite E1. cbn [rbind].
  destruct (IH m1 Hm1) as (m2 & E2 & Hm2). rewrite E2. cbn [rbind]. eauto.
Qed.

Lemma close_found : forall alg n q terms w, In w (close alg n q terms) <-> In w (found alg terms q n).
Proof. intros. unfold close. rewrite filter_In, found_In, N.leb_le, (dst_sym alg w q). tauto. Qed.

Lemma found_NoDup : forall alg terms q n, NoDup (found alg terms q n).
Proof. intros. eapply StronglySorted_NoDup with (R := shortlex_lt); eauto using shortlex_irrefl, found_sorted. Qed.

Lemma close_NoDup : forall alg n q terms, strictly_ascending terms -> NoDup (close alg n q terms).
Proof. intros. apply NoDup_filter, ascending_NoDup. auto. Qed.

Lemma expect_candidates_ok : forall alg q ws left m, memo_ok alg m -> NoDup ws -> NoDup left -> (forall w, In w ws <-> In w left) ->
  exists m', expect_candidates alg q (map (fun w => (w, N.of_nat (dst alg q w))) ws) left m = Ok (Passed m') /\ memo_ok alg m'.
Proof.
  intros alg q. induction ws as [|w ws IH]; intros left m Hm Nw Nl H; cbn [map expect_candidates].
  - destruct left as [|x left]; [cbn; eauto|]. exfalso. apply (proj2 (H x)). now left.
  - inversion Nw as [|? ? Ni Nw']; subst. rewrite (proj2 (has_In w left)) by (apply H; now left). cbn [RC_ASSERT].
    destruct (good_run _ _ _ _ m (between_good alg w q) Hm) as (k & m1 & E & -> & Hm1). rewrite E. cbn [rbind].
    rewrite (dst_sym alg w q), N.eqb_refl. cbn [RC_ASSERT]. apply IH; auto using erase_NoDup.
    intros v. rewrite erase_In, <- H. cbn [In]. split; [|intuition]. intros I. split; auto. intros ->. tauto.
Qed.

Lemma expect_all_candidates_ok : forall alg terms h d n queries m, dictionary terms h d -> strictly_ascending terms ->
  (forall q, In q queries -> within_limits terms q n) -> memo_ok alg m ->
  exists m', runs_to (fun fuel => expect_all_candidates fuel alg h d n (map (fun q => (q, close alg n q terms)) queries) m) (Passed m') /\
    memo_ok alg m'.
Proof.
  intros alg terms h d n queries m D As. revert m. induction queries as [|q queries IH]; intros m L Hm; cbn [map expect_all_candidates].
  - exists m. split; auto. exists 0. auto.
  - destruct (candidates_main alg _ _ _ q n D) as (B & E). { apply L. now left. }
    destruct (expect_candidates_ok alg q (found alg terms q n) (close alg n q terms) m Hm) as (m1 & E1 & Hm1);
      auto using found_NoDup, close_NoDup. { intros w. symmetry. apply close_found. }
    destruct (IH m1) as (m2 & (B2 & E2) & Hm2); auto. { intros; apply L; now right. }
    exists m2. split; auto. exists (B + B2). intros fuel Hf. rewrite E by lia. cbn [rbind]. unfold scored. rewrite E1. cbn [followed_by rbind].
    apply E2. lia.
Qed.

Lemma expect_all_terms_ok : forall alg terms h d n queries, dictionary terms h d -> strictly_ascending terms ->
  (forall q, In q queries -> within_limits terms q n) ->
  runs_to (fun fuel => expect_all_terms fuel alg h d n (map (fun q => (q, close alg n q terms)) queries)) (Passed tt).
Proof.
  intros alg terms h d n queries D As. induction queries as [|q queries IH]; intros L; cbn [map expect_all_terms].
  - exists 0. auto.
  - assert (Lq : within_limits terms q n) by (apply L; now left).
    destruct (C33_strings alg _ _ _ q n _ D Lq (candidates_main alg _ _ _ q n D Lq)) as (B & E).
    destruct IH as (B2 & E2). { intros; apply L; now right. }
    exists (B + B2). intros fuel Hf. rewrite E by lia. cbn [rbind]. rewrite scored_fst.
    rewrite tick_off_ok; auto using found_NoDup, close_NoDup.
    + cbn [followed_by rbind nothing RC_ASSERT]. apply E2. lia.
    + intros w. symmetry. apply close_found.
Qed.

Lemma test_transducer_ok : forall alloc alg h0 m terms queries n, allocator alloc -> strictly_ascending terms ->
  (forall q, In q queries -> within_limits terms q n) -> memo_ok alg m ->
  exists h' m', runs_to (fun fuel => test_transducer fuel alloc alg h0 m terms queries n) (Passed (h', m')) /\
    same_heap h' h0 /\ memo_ok alg m'.
Proof.
  intros alloc alg h0 m terms queries n A As L Hm. unfold test_transducer.
  destruct (all_close_ok alg n terms queries m Hm) as (m1 & -> & Hm1). cbn [rbind].
  destruct (C12_sorted_dawg alloc h0 terms A) as (h1 & r & R & I & _).
  destruct r as [b|]; [|exfalso; apply (proj2 I (strictly_weakly _ As)); reflexivity].
  pose proof (dictionary_sorted _ _ _ _ _ A R) as D.
  destruct (expect_all_candidates_ok alg _ _ _ n queries m1 D As L Hm1) as (m2 & (B1 & E1) & Hm2).
  destruct (expect_all_terms_ok alg _ _ _ n queries D As L) as (B2 & E2).
  destruct (C18_sorted_dawg alloc h0 terms h1 b A R) as (h2 & (B3 & E3) & S).
  destruct R as (B0 & R). exists h2, m2. split; [|auto]. exists (B0 + B1 + B2 + B3). intros fuel Hf.
  rewrite R by lia. cbn [rbind deref]. rewrite E1 by lia. cbn [followed_by rbind]. rewrite E2 by lia. cbn [followed_by rbind].
  rewrite E3 by lia. reflexivity.
Qed.

Lemma test_transducers_ok : forall alloc alg tests h0 m, allocator alloc ->
  (forall terms queries n, In (terms, queries, n) tests -> strictly_ascending terms /\ forall q, In q queries -> within_limits terms q n) ->
  memo_ok alg m ->
  exists h' m', runs_to (fun fuel => test_transducers fuel alloc alg h0 m tests) (Passed (h', m')) /\ same_heap h' h0.
Proof.
  intros alloc alg. induction tests as [|[[terms queries] n] tests IH]; intros h0 m A L Hm; cbn [test_transducers].
  - exists h0, m. split; [exists 0; auto|]. intros p. auto.
  - destruct (L _ _ _ (or_introl eq_refl)) as [As Lq].
    destruct (test_transducer_ok alloc alg h0 m terms queries n A As Lq Hm) as (h1 & m1 & (B1 & E1) & S1 & Hm1).
    destruct (IH h1 m1 A) as (h2 & m2 & (B2 & E2) & S2); auto. { intros; apply L; now right. }
    exists h2, m2. split; [|intros p; rewrite S2; apply S1]. exists (B1 + B2). intros fuel Hf. rewrite E1 by lia. cbn [followed_by rbind].
    apply E2. lia.
Qed.

(** ** Files *)
Lemma restores_ok : forall alloc size split room h0 terms h1 b m, allocator alloc ->
  runs_to (fun fuel => sorted_dawg fuel alloc h0 terms) (h1, Some b) -> addresses_fit h1 ->
  runs_to (fun fuel => to_protobuf fuel h1 (b_dawg b)) m -> not_too_long m -> splitter split ->
  (N.of_nat (length (encode m)) <= room)%N ->
  exists h', runs_to (fun fuel => restores_dawg fuel alloc size split true room h0 terms) (Passed h') /\ same_heap h' h0.
Proof.
  intros alloc size split room h0 terms h1 b m A R Af Rm Lm Sp Ro. unfold restores_dawg.
  pose proof (dictionary_sorted _ _ _ _ _ A R) as D. destruct (sorted_dawg_built _ _ _ _ _ A R) as (_ & Bu & Wk).
  destruct (C54_file terms h1 (b_dawg b) m size split room None alloc h1 D Af Rm Lm Sp Ro A) as (bytes & (B1 & E1) & h2 & b' & E2 & D2 & Sz & _ & Fr).
  assert (Eb : bytes = encode m).
  { destruct Rm as (Bm & Em). specialize (E1 (B1 + Bm) ltac:(lia)). unfold serialize_file, serialize_stream in E1. rewrite Em in E1 by lia. cbn [rbind] in E1.
    unfold serialize_to in E1. destruct (N.leb_spec (N.of_nat (length (encode m))) INT_MAX); [|unfold not_too_long in Lm; lia].
    pose proof (sound_all size room (split (encode m))) as So. rewrite Sp in So.
    rewrite (enough_room _ _ _ So Ro), (closed _ _ _ So), firstn_all2 in E1 by lia. now injection E1. }
  subst bytes. destruct (dictionary_message _ _ _ _ D Af Rm) as (Ra & _ & _ & _ & Wf).
  assert (E3 : from_protobuf alloc h1 m = Ok (h2, b')).
  { unfold deserialize_file, parse_from in E2. rewrite (decode_encode _ Ra Lm) in E2. cbn [rbind deserialize] in E2.
    destruct (from_protobuf alloc h1 m) as [[h' x]| |]; cbn in E2; try discriminate. now injection E2 as -> ->. }
  destruct (dictionary_unf _ _ _ D) as (U & _ & _). destruct (dictionary_unf _ _ _ D2) as (U2 & _ & _).
  destruct (restored_copy alloc h1 (b_dawg b) _ m h1 A U (written _ _ _ _ U Rm)) as (f & h' & E' & C).
  rewrite E' in E3. injection E3 as -> <-. cbn [b_dawg d_root d_size] in *. set (b' := Builder _ _ _) in *.
  assert (Rd : forall x, reach h2 (d_root (b_dawg b)) x <-> reach h1 (d_root (b_dawg b)) x).
  { intros x. apply reach_frame. intros q Rq. apply Fr. destruct (unf_reach_alloc _ _ _ _ U Rq) as (_ & n & G). unfold allocated. congruence. }
  assert (U1 : unf h2 (d_root (b_dawg b)) (trie terms)).
  { eapply unf_frame with (P := reach h1 (d_root (b_dawg b))); eauto using reach_closed, reach_refl.
    intros q Rq. apply Fr. destruct (unf_reach_alloc _ _ _ _ U Rq) as (_ & n & G). unfold allocated. congruence. }
  assert (New : forall x, reach h2 (f (d_root (b_dawg b))) x -> hget h1 x = None).
  { intros x Rx. apply (copy_reach _ _ _ _ _ _ C U) in Rx. destruct Rx as (p & Rp & ->). apply (cp_fresh _ _ _ _ _ C); auto. }
  destruct (dawg_eq_ok h2 (b_dawg b) (b_dawg b') _ _ U1 U2) as (r & (B4 & E4) & I4).
  assert (r = true) as -> by (apply I4; cbn; auto).
  destruct (destroy_dawg_all h2 (b_dawg b) _ U1) as (h3 & E5 & D5 & F5).
  assert (Rd3 : forall x, reach h3 (f (d_root (b_dawg b))) x <-> reach h2 (f (d_root (b_dawg b))) x).
  { intros x. apply reach_frame. intros q Rq. apply F5. intros Rq'. apply Rd in Rq'. destruct (unf_reach_alloc _ _ _ _ U Rq') as (_ & n & G).
    rewrite (New _ Rq) in G. discriminate. }
  assert (U3 : unf h3 (f (d_root (b_dawg b))) (trie terms)).
  { eapply unf_frame with (P := reach h2 (f (d_root (b_dawg b)))); eauto using reach_closed, reach_refl.
    intros q Rq. apply F5. intros Rq'. apply Rd in Rq'. destruct (unf_reach_alloc _ _ _ _ U Rq') as (_ & n & G).
    rewrite (New _ Rq) in G. discriminate. }
  destruct (cleaned_destroy_ok h0 h3 b' (trie terms)) as (h4 & (B6 & E6) & S6); cbn [b_work b_dawg d_root b']; auto.
  { intros p Rp. apply Rd3 in Rp. specialize (New _ Rp). rewrite <- (bu_rest _ _ _ _ Bu); auto.
    intros Rp'. destruct (unf_reach_alloc _ _ _ _ U Rp') as (_ & n & G). congruence. }
  { intros p Rp. rewrite Rd3 in Rp. destruct (all_nodes_all h1 (b_dawg b) _ U) as (nodes & _ & _ & In0).
    destruct (in_dec N.eq_dec p nodes) as [J|J]; rewrite In0 in J.
    - rewrite D5 by now apply Rd. symmetry. apply (bu_new _ _ _ _ Bu); auto.
    - rewrite F5 by now rewrite Rd. rewrite <- (bu_rest _ _ _ _ Bu) by auto. apply (cp_rest _ _ _ _ _ C).
      intros q Rq ->. apply Rp. apply (copy_reach _ _ _ _ _ _ C U). eauto. }
  exists h4. split; auto. destruct R as (B0 & R). exists (B0 + B1 + B4 + (tsize (trie terms) + 2) + B6). intros fuel Hf.
  rewrite R by lia. cbn [rbind]. rewrite E1 by lia. cbn [rbind RC_ASSERT]. rewrite E2. cbn [rbind].
  rewrite E4 by lia. cbn [rbind RC_ASSERT]. unfold destroy at 1, clean_up. rewrite Wk. cbn [rbind].
  rewrite E5 by lia. cbn [rbind]. rewrite E6 by lia. reflexivity.
Qed.

(** ** Pairs *)
Lemma pairs_ok : forall foo bar baz, (N.of_nat (length foo) <= INT_MAX)%N -> (N.of_nat (length bar) <= INT_MAX)%N ->
  (N.of_nat (length baz) <= INT_MAX)%N -> exists codes, pairs_are_comparable foo bar baz = Ok (Passed codes).
Proof.
  intros foo bar baz L1 L2 L3. unfold pairs_are_comparable.
  assert (K : forall u v x y, ModelDistance.key_eqb (symmetric_pair u v) (symmetric_pair x y) = true <-> (u = x /\ v = y) \/ (u = y /\ v = x)).
  { intros u v x y. apply (proj1 (C20_pair_hash u v x y)). }
  rewrite !(proj2 (K _ _ _ _)) by auto. cbn [andb RC_ASSERT].
  destruct (proj2 (C20_pair_hash foo bar bar foo) (proj2 (K _ _ _ _) (or_intror (conj eq_refl eq_refl))) L1 L2) as (c & E1 & E2).
  destruct (proj2 (C20_pair_hash foo baz foo baz) (proj2 (K _ _ _ _) (or_introl (conj eq_refl eq_refl))) L1 L3) as (c' & E3 & _).
  rewrite E1, E2, E3. cbn [rbind]. rewrite N.eqb_refl. cbn [RC_ASSERT].
  destruct (str_eqb bar baz) eqn:E; cbn [negb]; [eauto|].
  assert (Ne : bar <> baz). { intros ->. rewrite (proj2 (str_eqb_eq baz baz) eq_refl) in E. discriminate. }
  assert (F : forall u v x y, ~ ((u = x /\ v = y) \/ (u = y /\ v = x)) -> ModelDistance.key_eqb (symmetric_pair u v) (symmetric_pair x y) = false).
  { intros u v x y H. destruct (ModelDistance.key_eqb _ _) eqn:Ek; auto. apply K in Ek. contradiction. }
  rewrite !F; [cbn; eauto| | | |]; intros [[? ?]|[? ?]]; congruence.
Qed.
