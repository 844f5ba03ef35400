(** * C112: Building a dictionary from the terms that another one lists.

    Iterating lists the terms by length and then by signed characters; sorted_dawg
    wants them in the order of std::string.  So the terms that a dictionary lists
    need not be accepted, and how one has to collect them first. *)
From Coq Require Import Sorting.Sorted Sorting.Permutation.
From Verif Require Import Base Spec ModelTransducer ModelDawg SpecDawg
  TreeProofs HeapProofs IterProofs DawgProofs PropsDawg.
Local Open Scope nat_scope.

Lemma lex_le_trans : forall u v w, lex_le u v -> lex_le v w -> lex_le u w.
Proof. intros u v w [->|A] [->|B]; unfold lex_le; auto. right. eapply lex_trans; eauto. Qed.

Lemma strongly_sorted_by : forall (R : str -> str -> Prop) l, StronglySorted R l -> sorted_by R l.
Proof.
  intros R l H. induction H as [|a l S IH F]; [constructor|]. destruct l as [|b l]; constructor; auto. now inversion F.
Qed.

Lemma sorted_both : forall (R S : str -> str -> Prop) l, StronglySorted R l -> StronglySorted S l ->
  forall v w, In v l -> In w l -> v = w \/ (R v w /\ S v w) \/ (R w v /\ S w v).
Proof.
  intros R S l H. induction H as [|a l H IH F]; intros K v w Iv Iw; [destruct Iv|].
  inversion K as [|? ? K' G]; subst. rewrite Forall_forall in F, G. destruct Iv as [<-|Iv], Iw as [<-|Iw]; auto.
Qed.

Lemma sorted_last : forall l k e, StronglySorted lex_le l -> StronglySorted lex_le (l ++ repeat (last l e) k).
Proof.
  intros l k e H. induction H as [|a l H IH F]; cbn [app].
  - cbn [last]. induction k as [|k IH]; cbn; constructor; auto. apply Forall_forall. intros x I. apply repeat_spec in I. subst x. now left.
  - constructor.
    + destruct l as [|b l].
      * cbn [last app]. clear. induction k as [|k IH]; cbn; constructor; auto. apply Forall_forall. intros x I. apply repeat_spec in I. subst x. now left.
      * exact IH.
    + rewrite Forall_forall in *. intros x I. apply in_app_or in I. destruct I as [I|I]; auto. apply repeat_spec in I. subst x.
      destruct l as [|b l]; [now left|]. apply F. change (last (a :: b :: l) e) with (last (b :: l) e).
      destruct (exists_last (l := b :: l)) as (l' & x & E); [discriminate|]. rewrite E, last_last. apply in_or_app. right. now left.
Qed.

Lemma listed_shape : forall alloc h0 terms h b listed, allocator alloc -> (N.of_nat (length terms) < 2 ^ 64)%N ->
  runs_to (fun fuel => sorted_dawg fuel alloc h0 terms) (h, Some b) -> runs_to (fun fuel => iterate fuel h (b_dawg b)) listed ->
  (forall w, In w listed <-> In w terms) /\ length listed = length terms /\
  exists distinct k, StronglySorted shortlex_lt distinct /\ listed = distinct ++ repeat (last distinct []) k /\ (forall w, In w distinct <-> In w terms).
Proof.
  intros alloc h0 terms h b listed A L R It.
  destruct terms as [|t terms].
  - destruct (C15_iterate alloc h0 [] h b A) as (l & It' & P & _); auto; [constructor|].
    pose proof (runs_to_det _ _ _ _ It It') as ->. apply Permutation_sym, Permutation_nil in P. subst l. split; [tauto|]. split; auto.
    exists [], 0. split; [constructor|]. split; [reflexivity|tauto].
  - destruct (C21_repeats alloc h0 (t :: terms) h b A L) as (dd & N & I & S & It'); auto; [discriminate|].
    pose proof (runs_to_det _ _ _ _ It It') as ->.
    assert (Ne : dd <> []) by (intros ->; destruct (proj2 (I t) (or_introl eq_refl))).
    split; [|split].
    + intros w. rewrite in_app_iff. split; [|intros J; left; now apply I]. intros [J|J]; [now apply I|]. apply repeat_spec in J. subst w. apply I.
      destruct (exists_last Ne) as (l' & x & ->). rewrite last_last. apply in_or_app. right. now left.
    + rewrite app_length, repeat_length.
      assert (length dd <= length (t :: terms)) by (apply NoDup_incl_length; auto; intros w J; now apply I). lia.
    + exists dd, (length (t :: terms) - length dd). split; [|split; [reflexivity|exact I]].
      apply sorted_by_StronglySorted; auto. intros; eapply shortlex_trans; eauto.
Qed.

(** The terms that a dictionary lists are accepted by sorted_dawg exactly if no term
    that comes later in the order of std::string is listed earlier; then the new
    dictionary equals the old one.  Otherwise nothing is left behind. *)
Theorem C112_listed : forall alloc h0 terms h b listed, allocator alloc -> (N.of_nat (length terms) < 2 ^ 64)%N ->
  runs_to (fun fuel => sorted_dawg fuel alloc h0 terms) (h, Some b) -> runs_to (fun fuel => iterate fuel h (b_dawg b)) listed ->
  exists h2 r, runs_to (fun fuel => sorted_dawg fuel alloc h listed) (h2, r) /\
    (r <> None <-> forall v w, In v terms -> In w terms -> lex_lt v w -> shortlex_lt v w) /\
    (r = None -> same_heap h2 h) /\
    (forall b2, r = Some b2 -> runs_to (fun fuel => dawg_eq fuel h2 (b_dawg b) (b_dawg b2)) true).
Proof.
  intros alloc h0 terms h b listed A L R It.
  destruct (listed_shape _ _ _ _ _ _ A L R It) as (In_l & Len & dd & k & S & E & I).
  destruct (C12_sorted_dawg alloc h listed A) as (h2 & r & R2 & As & No). exists h2, r. split; auto. split; [|split; auto].
  - rewrite As. split.
    + intros Asc v w Iv Iw Lt. apply (sorted_by_StronglySorted lex_le) in Asc; [|exact lex_le_trans].
      assert (Sd : StronglySorted lex_le dd).
      { rewrite E in Asc. clear -Asc. induction dd as [|a dd IH]; [constructor|]. cbn [app] in Asc. inversion Asc as [|? ? A F]; subst.
        rewrite Forall_forall in F. constructor; [|apply Forall_forall; intros x I; apply F, in_or_app; now left].
        destruct dd as [|b dd]; [constructor|]. apply IH. exact A. }
      apply I in Iv, Iw. destruct (sorted_both _ _ _ Sd S v w Iv Iw) as [->|[(_ & Sl)|(Le & _)]]; auto.
      * exfalso. exact (lex_irrefl _ Lt).
      * exfalso. destruct Le as [->|Gt]; [exact (lex_irrefl _ Lt)|]. exact (lex_irrefl _ (lex_trans _ _ _ Lt Gt)).
    + intros H. apply strongly_sorted_by. rewrite E. apply sorted_last.
      assert (Sub : forall w, In w dd -> In w terms) by (intros w J; now apply I). clear -S H Sub.
      induction S as [|a l S IH F]; [constructor|]. constructor; [apply IH; intros w J; apply Sub; now right|].
      rewrite Forall_forall in *. intros x J. specialize (F _ J). destruct (lex_total a x) as [Lt|[->|Lt]]; [now right|now left|].
      exfalso. apply H in Lt; [|apply Sub; now right|apply Sub; now left]. exact (shortlex_irrefl _ (shortlex_trans _ _ _ Lt F)).
  - intros b2 ->. destruct (C19_equality_repeats _ _ _ _ _ _ _ _ A R R2) as (ans & Eq & Iff).
    assert (ans = true) as ->; [|exact Eq]. apply Iff. split; [intros w; now rewrite In_l|now rewrite Len].
Qed.
Print Assumptions C112_listed.

(** For terms of plain ASCII characters this is a matter of their lengths. *)
Theorem C112_ascii : forall terms, (forall t c, In t terms -> In c t -> (uchar c < 128)%N) ->
  ((forall v w, In v terms -> In w terms -> lex_lt v w -> shortlex_lt v w) <->
   (forall v w, In v terms -> In w terms -> lex_lt v w -> length v <= length w)).
Proof.
  intros terms As. split; intros H v w Iv Iw Lt; specialize (H v w Iv Iw Lt).
  - destruct H as [H|(H & _)]; lia.
  - destruct (Nat.eq_dec (length v) (length w)) as [E|N]; [right; split; auto|left; lia].
    assert (P : forall c d, In c v -> In d w -> (uchar c < uchar d)%N -> (schar c < schar d)%Z).
    { intros c d Ic Id L. pose proof (As v c Iv Ic). pose proof (As w d Iw Id). unfold schar.
      repeat match goal with |- context [(?x <? ?y)%N] => destruct (N.ltb_spec x y) end; lia. }
    clear -Lt P E. induction Lt as [b w|a b v w L|a v w L IH]; [constructor| |].
    + apply slex_head. apply P; auto; now left.
    + apply slex_tail, IH; [cbn in E; lia|]. intros c d Ic Id. apply P; now right.
Qed.
Print Assumptions C112_ascii.

(** Sorted first, or collected in a std::set, the listed terms are always accepted,
    and the new dictionary has the same terms; sorted with repetitions, or if the
    old one was built without any, it equals the old one. *)
Theorem C112_sorted : forall alloc h0 terms h b listed again, allocator alloc -> (N.of_nat (length terms) < 2 ^ 64)%N ->
  runs_to (fun fuel => sorted_dawg fuel alloc h0 terms) (h, Some b) -> runs_to (fun fuel => iterate fuel h (b_dawg b)) listed ->
  ascending again -> (forall w, In w again <-> In w listed) ->
  exists h2 b2, runs_to (fun fuel => sorted_dawg fuel alloc h again) (h2, Some b2) /\
    (forall w, In w again <-> In w terms) /\
    exists answer, runs_to (fun fuel => dawg_eq fuel h2 (b_dawg b) (b_dawg b2)) answer /\
      (length again = length listed -> answer = true) /\
      ((N.of_nat (length again) < 2 ^ 64)%N -> answer = true -> length again = length listed).
Proof.
  intros alloc h0 terms h b listed again A L R It Asc Same.
  destruct (listed_shape _ _ _ _ _ _ A L R It) as (In_l & Len & _).
  destruct (C12_sorted_dawg alloc h again A) as (h2 & r & R2 & As & _). destruct r as [b2|]; [|exfalso; now apply As].
  exists h2, b2. split; auto. split; [intros w; rewrite Same; apply In_l|].
  destruct (C19_equality_repeats _ _ _ _ _ _ _ _ A R R2) as (ans & Eq & Iff). exists ans. split; auto. rewrite Iff. rewrite Len. split.
  - intros E. split; [intros w; now rewrite Same, In_l|now rewrite E].
  - intros La (_ & E). rewrite !N.mod_small in E by auto. lia.
Qed.
Print Assumptions C112_sorted.

(** Cases: a, ab, b are listed as a, b, ab, and refused; so are a and e acute. *)
Example C112_cases :
  let relist terms := match sorted_dawg 30 bump [] terms with
    | Ok (h, Some b) => match iterate 30 h (b_dawg b) with Ok l => Some (l, match sorted_dawg 30 bump h l with Ok (_, Some _) => true | _ => false end) | _ => None end
    | _ => None end in
  relist [lit "a"; lit "ab"; lit "b"] = Some ([lit "a"; lit "b"; lit "ab"], false) /\
  relist [lit "a"; ["233"%char]] = Some ([["233"%char]; lit "a"], false) /\
  relist [lit "a"; lit "ab"; lit "ab"] = Some ([lit "a"; lit "ab"; lit "ab"], true) /\
  relist [lit "bat"; lit "cat"; lit "cattle"] = Some ([lit "bat"; lit "cat"; lit "cattle"], true).
Proof. repeat split; vm_compute; reflexivity. Qed.

Theorem C112_listed_refuted : exists terms h b listed, runs_to (fun fuel => sorted_dawg fuel bump [] terms) (h, Some b) /\
  runs_to (fun fuel => iterate fuel h (b_dawg b)) listed /\ exists h2, runs_to (fun fuel => sorted_dawg fuel bump h listed) (h2, None).
Proof.
  exists [lit "ab"; lit "b"].
  destruct (C12_sorted_dawg bump [] [lit "ab"; lit "b"] bump_allocator) as (h & r & R & As & _).
  assert (Asc : ascending [lit "ab"; lit "b"]) by (unfold ascending; ascending_tac).
  destruct r as [b|]; [|exfalso; now apply As]. exists h, b.
  destruct (C21_repeats bump [] [lit "ab"; lit "b"] h b bump_allocator ltac:(reflexivity) ltac:(discriminate) R) as (dd & _ & _ & _ & It).
  eexists. split; [exact R|]. split; [exact It|].
  destruct (C112_listed bump [] [lit "ab"; lit "b"] h b _ bump_allocator ltac:(reflexivity) R It) as (h2 & r2 & R2 & Iff & _). exists h2.
  destruct r2 as [b2|]; [|exact R2]. exfalso. pose proof (proj1 Iff ltac:(discriminate) (lit "ab") (lit "b")) as H.
  assert (S : shortlex_lt (lit "ab") (lit "b")) by (apply H; [now left|right; now left|apply lex_head; reflexivity]).
  destruct S as [S|(S & _)]; cbn in S; lia.
Qed.
Print Assumptions C112_listed_refuted.
