(** * C115: A dictionary in parts.

    The terms may be divided among several dictionaries, each with a transducer of
    its own.  What the answers of the parts say about the answer of a dictionary
    with all the terms. *)
From Coq Require Import Sorting.Sorted Sorting.Permutation.
From Verif Require Import Base Spec ModelTransducer ModelDawg ModelQuery SpecDawg SpecQuery SpecDistance SpecBounds
  AlignProofs DistFacts PropsDawg TreeProofs HeapProofs IterProofs DawgProofs QueryProofs QueryFacts PropsQuery PropsBounds PropsRelated.
Local Open Scope nat_scope.

Record part := Part { p_terms : list str; p_heap : heap; p_dawg : dawg }.

(** The parts are dictionaries, and [terms] are the terms of all of them. *)
Definition divided (terms : list str) (parts : list part) : Prop :=
  (forall p, In p parts -> dictionary (p_terms p) (p_heap p) (p_dawg p)) /\
  forall t, In t terms <-> exists p, In p parts /\ In t (p_terms p).

(** No term is in two of them. *)
Definition disjoint (p p' : part) : Prop := forall t, In t (p_terms p) -> ~ In t (p_terms p').

(** No two of them have terms that begin with the same character. *)
Definition different_letters (p p' : part) : Prop :=
  forall c t t', In (c :: t) (p_terms p) -> ~ In (c :: t') (p_terms p').

(** [all] can be had by taking, again and again, the first element of one of the
    lists. *)
Inductive merged {A : Type} : list (list A) -> list A -> Prop :=
| merged_none : forall ls, (forall l, In l ls -> l = []) -> merged ls []
| merged_first : forall before l after x all,
    merged (before ++ l :: after) all -> merged (before ++ (x :: l) :: after) (x :: all).

(** ** Lists *)

Lemma merged_In : forall A (ls : list (list A)) all, merged ls all -> forall x, In x all <-> exists l, In l ls /\ In x l.
Proof.
  intros A ls all M. induction M as [ls E|before l after x all M IH]; intros y.
  - split; [intros []|]. intros (l & I & J). rewrite (E _ I) in J. destruct J.
  - cbn [In]. rewrite IH. split.
    + intros [<-|(l' & I & J)]; [exists (x :: l); split; [apply in_elt|now left]|].
      apply in_app_or in I. destruct I as [I|[<-|I]]; [exists l'|exists (x :: l)|exists l'];
        (split; [apply in_or_app; cbn [In]; auto|cbn [In]; auto]).
    + intros (l' & I & J). apply in_app_or in I. destruct I as [I|[<-|I]].
      * right. exists l'. split; [apply in_or_app; auto|auto].
      * destruct J as [<-|J]; [now left|]. right. exists l. split; [apply in_elt|auto].
      * right. exists l'. split; [apply in_or_app; cbn [In]; auto|auto].
Qed.

Lemma merged_permutation : forall A (ls : list (list A)) all, merged ls all -> Permutation all (concat ls).
Proof.
  intros A ls all M. induction M as [ls E|before l after x all M IH].
  - induction ls as [|l ls IH]; auto. cbn. rewrite (E l (or_introl eq_refl)). cbn. apply IH. intros l' I. apply E. now right.
  - rewrite !concat_app in *. cbn [concat] in *. cbn [app]. rewrite IH. apply Permutation_middle.
Qed.

Lemma merged_filters : forall A (fs : list (A -> bool)) all,
  (forall x, In x all -> exists before f after, fs = before ++ f :: after /\ f x = true /\ forall g, In g (before ++ after) -> g x = false) ->
  merged (map (fun f => filter f all) fs) all.
Proof.
  intros A fs all. induction all as [|x all IH]; intros H.
  - apply merged_none. intros l I. apply in_map_iff in I. destruct I as (f & <- & _). reflexivity.
  - destruct (H x (or_introl eq_refl)) as (before & f & after & -> & F & G). specialize (IH (fun y I => H y (or_intror I))).
    rewrite map_app in *. cbn [map filter] in *. rewrite F.
    assert (E : forall gs : list (A -> bool), (forall g, In g gs -> g x = false) -> map (fun g : A -> bool => if g x then x :: filter g all else filter g all) gs = map (fun g => filter g all) gs).
    { intros gs K. apply map_ext_in. intros g I. now rewrite (K g I). }
    rewrite !E by (intros g I; apply G, in_or_app; auto). now apply merged_first.
Qed.

(** ** Looking up *)

Theorem C115_contains : forall terms parts h d w, dictionary terms h d -> divided terms parts -> (N.of_nat (length w) <= INT_MAX)%N ->
  exists answer, contains h d w = Ok answer /\
    (answer = true <-> exists p, In p parts /\ contains (p_heap p) (p_dawg p) w = Ok true).
Proof.
  intros terms parts h d w D (Dp & Ev) L. destruct (dictionary_unf _ _ _ D) as (U & _).
  exists (tin (trie terms) w). split; [now apply contains_ok|]. rewrite tin_trie, Ev. split; intros (p & I & H); exists p; split; auto;
    destruct (dictionary_unf _ _ _ (Dp _ I)) as (Up & _).
  - rewrite (contains_ok _ _ _ _ Up L). f_equal. now apply tin_trie.
  - rewrite (contains_ok _ _ _ _ Up L) in H. injection H as H. now apply tin_trie.
Qed.
Print Assumptions C115_contains.

(** ** Queries *)

Definition of_part (p : part) (c : str * N) : bool :=
  if in_dec (list_eq_dec Ascii.ascii_dec) (fst c) (p_terms p) then true else false.

Lemma of_part_iff : forall p c, of_part p c = true <-> In (fst c) (p_terms p).
Proof. intros p c. unfold of_part. destruct (in_dec _ _ _); intuition discriminate. Qed.

Lemma answers_filter : forall alg terms parts h d q n results answers, dictionary terms h d -> divided terms parts -> within_limits terms q n ->
  yields as_candidate alg h d q n results ->
  Forall2 (fun p r => yields as_candidate alg (p_heap p) (p_dawg p) q n r) parts answers ->
  answers = map (fun p => filter (of_part p) results) parts.
Proof.
  intros alg terms parts h d q n results answers D (Dp & Ev) L Y F.
  assert (Sub : forall p, In p parts -> forall t, In t (p_terms p) -> In t terms) by (intros p I t J; apply Ev; eauto). clear Ev.
  induction F as [|p r parts answers Yr F IH]; auto. cbn [map]. f_equal; [|apply IH; [intros p' I; apply Dp|intros p' I; apply Sub]; now right].
  destruct (C91_fewer alg (p_terms p) terms _ _ _ _ q n n r results (Dp p (or_introl eq_refl)) D (Sub p (or_introl eq_refl)) ltac:(lia) L Yr Y)
    as (wanted & W & ->).
  apply filter_ext_in. intros c I. apply Bool.eq_iff_eq_true. rewrite W, of_part_iff.
  pose proof (yields_det _ _ _ _ _ _ _ _ _ Y (candidates_main _ _ _ _ _ _ D L)) as ->. destruct c as (w & k). apply scored_In in I. cbn [fst snd]. tauto.
Qed.

Lemma sorted_pairs : forall (l1 l2 : list (str * N)), StronglySorted shortlex_lt (map fst l1) -> StronglySorted shortlex_lt (map fst l2) ->
  (forall c, In c l1 <-> In c l2) -> l1 = l2.
Proof.
  induction l1 as [|a l1 IH]; intros [|b l2] S1 S2 E; auto.
  - exfalso. apply (E b). now left.
  - exfalso. apply (E a). now left.
  - cbn [map] in *. inversion S1 as [|? ? S1' F1]; subst. inversion S2 as [|? ? S2' F2]; subst. rewrite Forall_forall in *.
    assert (B1 : forall c, In c l1 -> shortlex_lt (fst a) (fst c)) by (intros c I; apply F1, in_map, I).
    assert (B2 : forall c, In c l2 -> shortlex_lt (fst b) (fst c)) by (intros c I; apply F2, in_map, I).
    assert (a = b) as <-.
    { destruct (proj1 (E a) (or_introl eq_refl)) as [<-|I]; auto. destruct (proj2 (E b) (or_introl eq_refl)) as [<-|I']; auto.
      exfalso. eapply shortlex_irrefl, shortlex_trans; eauto. }
    f_equal. apply IH; auto. intros c. split; intros I.
    + destruct (proj1 (E c) (or_intror I)) as [<-|I']; auto. exfalso. eapply shortlex_irrefl; eauto.
    + destruct (proj2 (E c) (or_intror I)) as [<-|I']; auto. exfalso. eapply shortlex_irrefl; eauto.
Qed.

(** A candidate is found if and only if it is found in one of the parts, with the
    same distance; what is found in a part comes in the same order.  If no term is
    in two parts, the answer is made of those of the parts by merging them, and
    whoever merges them so that the result is in the order of the iteration gets
    the answer. *)
Theorem C115_query : forall alg terms parts h d q n results answers, dictionary terms h d -> divided terms parts -> within_limits terms q n ->
  yields as_candidate alg h d q n results ->
  Forall2 (fun p r => yields as_candidate alg (p_heap p) (p_dawg p) q n r) parts answers ->
  (forall c, In c results <-> exists r, In r answers /\ In c r) /\
  (forall r, In r answers -> exists wanted, r = filter wanted results) /\
  (ForallOrdPairs disjoint parts -> merged answers results /\
    forall all, merged answers all -> sorted_by shortlex_lt (map fst all) -> all = results).
Proof.
  intros alg terms parts h d q n results answers D Dv L Y F.
  pose proof (answers_filter _ _ _ _ _ _ _ _ _ D Dv L Y F) as ->. destruct Dv as (Dp & Ev).
  pose proof (yields_det _ _ _ _ _ _ _ _ _ Y (candidates_main _ _ _ _ _ _ D L)) as E.
  assert (T : forall c, In c results -> exists p, In p parts /\ of_part p c = true).
  { intros (w & k) I. subst results. apply scored_In in I. destruct I as (I & _). apply Ev in I. destruct I as (p & I & J).
    exists p. split; auto. now apply of_part_iff. }
  assert (Ee : forall c, In c results <-> exists r, In r (map (fun p => filter (of_part p) results) parts) /\ In c r).
  { intros c. split.
    - intros I. destruct (T c I) as (p & Ip & O). exists (filter (of_part p) results). split; [|now apply filter_In].
      apply in_map_iff. eauto.
    - intros (r & Ir & I). apply in_map_iff in Ir. destruct Ir as (p & <- & _). now apply filter_In in I. }
  split; [exact Ee|]. split.
  - intros r I. apply in_map_iff in I. destruct I as (p & <- & _). eauto.
  - intros Dj. split.
    + rewrite <- (map_map of_part (fun f => filter f results)). apply merged_filters. intros c I. destruct (T c I) as (p & Ip & O).
      clear - Dj Ip O. induction Dj as [|p0 parts F0 Dj IH]; [destruct Ip|].
      destruct Ip as [->|Ip].
      * exists [], (of_part p), (map of_part parts). split; [reflexivity|]. split; auto. intros g I. cbn [app] in I. apply in_map_iff in I.
        destruct I as (p' & <- & I). apply Bool.not_true_is_false. intros O'. apply of_part_iff in O, O'.
        rewrite Forall_forall in F0. exact (F0 _ I _ O O').
      * destruct (IH Ip) as (before & f & after & Ef & Of & G). exists (of_part p0 :: before), f, after. cbn [map app]. rewrite Ef.
        split; auto. split; auto. intros g [<-|I]; [|auto]. apply Bool.not_true_is_false. intros O'. apply of_part_iff in O, O'.
        rewrite Forall_forall in F0. exact (F0 _ Ip _ O' O).
    + intros all M S. apply sorted_pairs.
      * apply sorted_by_StronglySorted; [exact shortlex_trans|auto].
      * subst results. unfold scored. rewrite map_map. cbn [fst]. rewrite map_id. apply found_sorted.
      * intros c. rewrite (merged_In _ _ _ M). now rewrite Ee.
Qed.
Print Assumptions C115_query.

(** ** What it costs *)

Lemma worth_trying_divided : forall alg terms parts q n w, divided terms parts ->
  (worth_trying alg terms q n w <-> exists p, In p parts /\ worth_trying alg (p_terms p) q n w).
Proof.
  intros alg terms parts q n w (_ & Ev). unfold worth_trying. split.
  - intros (v & c & u & z & k & -> & I & H). apply Ev in I. destruct I as (p & I & J). exists p. split; auto. exists v, c, u, z, k. auto.
  - intros (p & I & v & c & u & z & k & -> & J & H). exists v, c, u, z, k. split; auto. split; auto. apply Ev. eauto.
Qed.

(** Asking all parts to the end looks at the same prefixes as asking the whole, but
    at a prefix that is in several parts several times.  If the parts have terms
    with different first letters, nothing is looked at twice. *)
Theorem C115_work : forall alg terms parts h d q n results answers k log it logs,
  dictionary terms h d -> divided terms parts -> within_limits terms q n ->
  yields as_candidate alg h d q n results -> length results <= k ->
  works as_candidate alg h d q n k log it ->
  Forall2 (fun p r => yields as_candidate alg (p_heap p) (p_dawg p) q n r) parts answers ->
  Forall2 (fun p l => exists i, works as_candidate alg (p_heap p) (p_dawg p) q n k l i) parts logs ->
  (forall w, In w log <-> exists l, In l logs /\ In w l) /\ length log <= length (concat logs) /\
  (ForallOrdPairs different_letters parts -> Permutation log (concat logs)).
Proof.
  intros alg terms parts h d q n results answers k log it logs D Dv L Y Lk Wk Fy Fl.
  assert (G : forall ts h d l i r, dictionary ts h d -> within_limits ts q n -> yields as_candidate alg h d q n r -> length r <= k ->
    works as_candidate alg h d q n k l i -> NoDup l /\ forall w, In w l <-> worth_trying alg ts q n w).
  { intros ts h' d' l i r D' L' Y' Lr W. destruct (C65_work _ as_candidate alg ts h' d' q n k r D' L' Y') as (l' & i' & W' & _ & S & H).
    pose proof (runs_to_det _ _ _ _ W W') as E. injection E as <- <-. split.
    - apply sorted_by_StronglySorted in S; [|exact shortlex_trans]. now apply StronglySorted_NoDup in S; [|exact shortlex_irrefl].
    - intros w. rewrite H. replace (nth_error r k) with (@None (str * N)) by (symmetry; now apply nth_error_None). tauto. }
  destruct (G _ _ _ _ _ _ D L Y Lk Wk) as (Nd & Hw).
  pose proof (answers_filter _ _ _ _ _ _ _ _ _ D Dv L Y Fy) as Ea.
  assert (Gp : Forall2 (fun p l => NoDup l /\ forall w, In w l <-> worth_trying alg (p_terms p) q n w) parts logs).
  { destruct Dv as (Dp & Ev). assert (Sub : forall p, In p parts -> forall t, In t (p_terms p) -> In t terms) by (intros p I t J; apply Ev; eauto).
    subst answers. clear - G Dp Sub L Lk Fy Fl. induction Fl as [|p l parts logs (i & W) Fl IH]; [constructor|].
    cbn [map] in Fy. inversion Fy as [|? ? ? ? Yr Fy']; subst. constructor.
    - eapply G; eauto.
      + apply Dp. now left.
      + destruct L as (A & B & C). split; auto. split; auto. intros t I. apply C, (Sub p); [now left|auto].
      + etransitivity; [|exact Lk]. clear. induction results as [|x l IH]; cbn; auto. destruct (of_part p x); cbn; lia.
    - apply IH; auto; intros p' I; [apply Dp|apply Sub]; now right. }
  assert (Hl : forall w, In w log <-> exists l, In l logs /\ In w l).
  { intros w. rewrite Hw, (worth_trying_divided alg terms parts q n w Dv). clear - Gp. induction Gp as [|p l parts logs (N & H) Gp IH].
    - split; intros (x & [] & _).
    - split.
      + intros (p' & [<-|I] & J); [exists l; split; [now left|now apply H]|]. destruct (proj1 IH) as (l' & I' & J'); eauto. exists l'. split; [now right|auto].
      + intros (l' & [<-|I] & J); [exists p; split; [now left|now apply H]|]. destruct (proj2 IH) as (p' & I' & J'); eauto. exists p'. split; [now right|auto]. }
  split; [exact Hl|]. split.
  - apply NoDup_incl_length; auto. intros w I. apply in_concat. now apply Hl.
  - intros Df. apply NoDup_Permutation; auto; [|intros w; rewrite in_concat; apply Hl].
    clear - Gp Df. induction Gp as [|p l parts logs (N & H) Gp IH]; [constructor|]. inversion Df as [|? ? F0 Df']; subst. cbn [concat].
    assert (Dis : forall w, In w l -> ~ In w (concat logs)).
    { intros w I J. apply H in I. apply in_concat in J. destruct J as (l' & Jl & J).
      assert (exists p', In p' parts /\ worth_trying alg (p_terms p') q n w) as (p' & Ip & Wt).
      { clear - Gp Jl J. induction Gp as [|p1 l1 parts logs (N & H) Gp IH]; [destruct Jl|]. destruct Jl as [->|Jl].
        - exists p1. split; [now left|now apply H].
        - destruct (IH Jl) as (p' & A & B). exists p'. split; [now right|auto]. }
      destruct I as (v & c & u & z & j & -> & I & _). destruct Wt as (v' & c' & u' & z' & j' & E & I' & _).
      rewrite Forall_forall in F0. specialize (F0 _ Ip). clear E. destruct (v ++ [c]) as [|a rest] eqn:Ev; [destruct v; discriminate|].
      cbn [app] in I, I'. exact (F0 _ _ _ I I'). }
    clear - N IH Df' Dis. specialize (IH Df'). induction N as [|x l Nx N IHl]; auto. cbn [app]. constructor.
    + intros I. apply in_app_or in I. destruct I as [I|I]; auto. apply (Dis x); [now left|auto].
    + apply IHl. intros w I. apply Dis. now right.
Qed.
Print Assumptions C115_work.

(** ** Listing the terms *)

Theorem C115_listed : forall alloc h0 terms h b built listed lists, allocator alloc -> strictly_ascending terms ->
  (N.of_nat (length terms) < 2 ^ 64)%N -> runs_to (fun fuel => sorted_dawg fuel alloc h0 terms) (h, Some b) ->
  Forall (fun '(h1, terms1, h2, b2) => strictly_ascending terms1 /\ runs_to (fun fuel => sorted_dawg fuel alloc h1 terms1) (h2, Some b2)) built ->
  let parts := map (fun '(_, terms1, h2, b2) => Part terms1 h2 (b_dawg b2)) built in
  divided terms parts -> ForallOrdPairs disjoint parts ->
  runs_to (fun fuel => iterate fuel h (b_dawg b)) listed ->
  Forall2 (fun p l => runs_to (fun fuel => iterate fuel (p_heap p) (p_dawg p)) l) parts lists ->
  merged lists listed /\ forall all, merged lists all -> sorted_by shortlex_lt all -> all = listed.
Proof.
  intros alloc h0 terms h b built listed lists A St Lt R Fb parts Dv Dj It Fl.
  assert (G : forall h1 ts h2 b2 l, strictly_ascending ts -> (N.of_nat (length ts) < 2 ^ 64)%N ->
    runs_to (fun fuel => sorted_dawg fuel alloc h1 ts) (h2, Some b2) -> runs_to (fun fuel => iterate fuel h2 (b_dawg b2)) l ->
    StronglySorted shortlex_lt l /\ forall t, In t l <-> In t ts).
  { intros h1 ts h2 b2 l S L R' I'. destruct (C15_iterate _ _ _ _ _ A S L R') as (l' & I & P & So).
    rewrite (runs_to_det _ _ _ _ I' I). split; [apply sorted_by_StronglySorted; [exact shortlex_trans|auto]|].
    intros t. split; apply Permutation_in; [exact P|now symmetry]. }
  destruct (G _ _ _ _ _ St Lt R It) as (Sl & Il).
  set (mine := fun p t => if in_dec (list_eq_dec Ascii.ascii_dec) t (p_terms p) then true else false).
  assert (Mi : forall p t, mine p t = true <-> In t (p_terms p)) by (intros p t; unfold mine; destruct (in_dec _ _ _); intuition discriminate).
  assert (El : lists = map (fun p => filter (mine p) listed) parts).
  { destruct Dv as (_ & Ev). assert (Sub : forall p, In p parts -> forall t, In t (p_terms p) -> In t terms) by (intros p I t J; apply Ev; eauto).
    unfold parts in *. clear - Fb Fl Sub G Lt Sl Il Mi. revert lists Fl. induction Fb as [|(((h1 & ts) & h2) & b2) built (S & R) Fb IH]; intros lists Fl.
    - inversion Fl. reflexivity.
    - cbn [map] in *. inversion Fl as [|? l ? ls I Fl']; subst. f_equal.
      + cbn [p_heap p_dawg] in I.
        assert (L : (N.of_nat (length ts) < 2 ^ 64)%N).
        { assert (length ts <= length terms); [|lia]. apply NoDup_incl_length.
          - apply sorted_by_StronglySorted in S; [|exact lex_trans]. now apply StronglySorted_NoDup in S; [|exact lex_irrefl].
          - intros t J. apply (Sub _ (or_introl eq_refl)). exact J. }
        destruct (G _ _ _ _ _ S L R I) as (Sl' & Il'). apply sorted_same; auto; [now apply filter_sorted|].
        intros t. rewrite filter_In, Il', Mi, Il. cbn [p_terms]. split; [|tauto]. intros J. split; auto. apply (Sub _ (or_introl eq_refl)). exact J.
      + apply IH; auto. intros p J. apply Sub. now right. }
  assert (T : forall t, In t listed -> exists p, In p parts /\ mine p t = true).
  { intros t I. apply Il, (proj2 Dv) in I. destruct I as (p & I & J). exists p. split; auto. now apply Mi. }
  split.
  - rewrite El, <- (map_map mine (fun f => filter f listed)). apply merged_filters. intros c I. destruct (T c I) as (p & Ip & O).
    clear - Dj Ip O Mi. induction Dj as [|p0 parts F0 Dj IH]; [destruct Ip|]. rewrite Forall_forall in F0.
    destruct Ip as [->|Ip].
    + exists [], (mine p), (map mine parts). split; [reflexivity|]. split; auto. intros g I. cbn [app] in I. apply in_map_iff in I.
      destruct I as (p' & <- & I). apply Bool.not_true_is_false. intros O'. apply Mi in O, O'. exact (F0 _ I _ O O').
    + destruct (IH Ip) as (before & f & after & Ef & Of & K). exists (mine p0 :: before), f, after. cbn [map app]. rewrite Ef.
      split; auto. split; auto. intros g [<-|I]; [|auto]. apply Bool.not_true_is_false. intros O'. apply Mi in O, O'.
      exact (F0 _ Ip _ O' O).
  - intros all M S. apply sorted_same; auto; [apply sorted_by_StronglySorted; [exact shortlex_trans|auto]|].
    intros t. rewrite (merged_In _ _ _ M), El. split.
    + intros (l & I & J). apply in_map_iff in I. destruct I as (p & <- & _). now apply filter_In in J.
    + intros I. destruct (T t I) as (p & Ip & O). exists (filter (mine p) listed). split; [apply in_map_iff; eauto|now apply filter_In].
Qed.
Print Assumptions C115_listed.

(** ** A case: the terms of the example in two parts *)

Definition odd_terms : list str := [sa; scab].
Definition even_terms : list str := [sab; scb].

Example C115_case : exists h1 b1 h2 b2 answer1 answer2 results,
  let p1 := Part odd_terms h1 (b_dawg b1) in let p2 := Part even_terms h2 (b_dawg b2) in
  divided some_terms [p1; p2] /\ ForallOrdPairs disjoint [p1; p2] /\ ~ different_letters p1 p2 /\
  runs_to (fun fuel => sorted_dawg fuel bump [] odd_terms) (h1, Some b1) /\
  runs_to (fun fuel => sorted_dawg fuel bump h1 even_terms) (h2, Some b2) /\
  yields as_candidate STANDARD h1 (b_dawg b1) cat 2 answer1 /\ answer1 = [(sa, 2%N); (scab, 1%N)] /\
  yields as_candidate STANDARD h2 (b_dawg b2) cat 2 answer2 /\ answer2 = [(sab, 2%N); (scb, 2%N)] /\
  yields as_candidate STANDARD example_heap example_dawg cat 2 results /\ merged [answer1; answer2] results.
Proof.
  destruct (C12_sorted_dawg bump [] odd_terms bump_allocator) as (h1 & r1 & R1 & As1 & _).
  assert (Asc1 : ascending odd_terms) by (unfold odd_terms, ascending; ascending_tac).
  destruct r1 as [b1|]; [|exfalso; now apply As1].
  destruct (C12_sorted_dawg bump h1 even_terms bump_allocator) as (h2 & r2 & R2 & As2 & _).
  assert (Asc2 : ascending even_terms) by (unfold even_terms, ascending; ascending_tac).
  destruct r2 as [b2|]; [|exfalso; now apply As2].
  pose proof (dictionary_sorted _ _ _ _ _ bump_allocator R1) as D1. pose proof (dictionary_sorted _ _ _ _ _ bump_allocator R2) as D2.
  assert (Lim : forall ts, (forall t, In t ts -> In t some_terms) -> within_limits ts cat 2).
  { intros ts Sub. destruct (example_limits 2 ltac:(discriminate)) as (A & B & C). split; auto. }
  exists h1, b1, h2, b2. do 3 eexists. cbv zeta.
  assert (Dv : divided some_terms [Part odd_terms h1 (b_dawg b1); Part even_terms h2 (b_dawg b2)]).
  { split.
    - intros p [<-|[<-|[]]]; assumption.
    - intros t. split.
      + intros [<-|[<-|[<-|[<-|[]]]]];
          [exists (Part odd_terms h1 (b_dawg b1))|exists (Part even_terms h2 (b_dawg b2))|exists (Part odd_terms h1 (b_dawg b1))
          |exists (Part even_terms h2 (b_dawg b2))]; (split; [cbn [In]; auto|cbn; auto]).
      + intros (p & [<-|[<-|[]]] & I); cbn in I; cbn; tauto. }
  assert (Y1 : yields as_candidate STANDARD h1 (b_dawg b1) cat 2 [(sa, 2%N); (scab, 1%N)]).
  { exact (candidates_main STANDARD _ _ _ _ _ D1 (Lim odd_terms ltac:(cbn; tauto))). }
  assert (Y2 : yields as_candidate STANDARD h2 (b_dawg b2) cat 2 [(sab, 2%N); (scb, 2%N)]).
  { exact (candidates_main STANDARD _ _ _ _ _ D2 (Lim even_terms ltac:(cbn; tauto))). }
  assert (Dj : ForallOrdPairs disjoint [Part odd_terms h1 (b_dawg b1); Part even_terms h2 (b_dawg b2)]).
  { repeat constructor. intros t [<-|[<-|[]]] I; cbn in I; destruct I as [I|[I|[]]]; discriminate. }
  split; [exact Dv|]. split; [exact Dj|]. split.
  { intros H. apply (H "a"%char [] (lit "b")); cbn; auto. }
  split; [exact R1|]. split; [exact R2|]. split; [exact Y1|]. split; [reflexivity|]. split; [exact Y2|]. split; [reflexivity|].
  split; [exact example_yields|].
  apply (C115_query _ _ _ _ _ _ _ _ _ example_dictionary Dv (example_limits 2 ltac:(discriminate)) example_yields); [|exact Dj].
  repeat constructor; assumption.
Qed.

(** In two parts the same query looks at the prefixes a, c, ca and cab in one and at a, c,
    ab and cb in the other: a and c twice.  Divided by first letters, nothing is
    looked at twice. *)
Example C115_work_case :
  (exists h1 b1 it1 h2 b2 it2, sorted_dawg 40 bump [] odd_terms = Ok (h1, Some b1) /\ sorted_dawg 40 bump [] even_terms = Ok (h2, Some b2) /\
     log_after as_candidate 60 h1 (new_transducer STANDARD (d_root (b_dawg b1))) cat 2 5 = Ok ([lit "a"; lit "c"; lit "ca"; lit "cab"], it1) /\
     log_after as_candidate 60 h2 (new_transducer STANDARD (d_root (b_dawg b2))) cat 2 5 = Ok ([lit "a"; lit "c"; lit "ab"; lit "cb"], it2)) /\
  (exists it, log_after as_candidate 60 example_heap (new_transducer STANDARD (d_root example_dawg)) cat 2 5 =
     Ok ([lit "a"; lit "c"; lit "ab"; lit "ca"; lit "cb"; lit "cab"], it)) /\
  (exists h1 b1 it1 h2 b2 it2, sorted_dawg 40 bump [] [sa; sab] = Ok (h1, Some b1) /\ sorted_dawg 40 bump [] [scab; scb] = Ok (h2, Some b2) /\
     different_letters (Part [sa; sab] h1 (b_dawg b1)) (Part [scab; scb] h2 (b_dawg b2)) /\
     log_after as_candidate 60 h1 (new_transducer STANDARD (d_root (b_dawg b1))) cat 2 5 = Ok ([lit "a"; lit "ab"], it1) /\
     log_after as_candidate 60 h2 (new_transducer STANDARD (d_root (b_dawg b2))) cat 2 5 = Ok ([lit "c"; lit "ca"; lit "cb"; lit "cab"], it2)).
Proof.
  split; [|split].
  - do 6 eexists. run. run. run. vm_compute. reflexivity.
  - eexists. vm_compute. reflexivity.
  - do 6 eexists. run. run. split; [|run; vm_compute; reflexivity].
    intros c t t' [I|[I|[]]] [J|[J|[]]]; apply (f_equal (hd_error (A := char))) in I, J; cbn in I, J; congruence.
Qed.
