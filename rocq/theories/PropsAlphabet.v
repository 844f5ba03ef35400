(** * C111: Spelled otherwise.

    What becomes of distances and queries if every string is spelled with other
    letters, backwards, or between the same beginning and ending; what the distance
    of two strings says about their parts; and strings without a common letter. *)
From Coq Require Import Sorting.Sorted Sorting.Permutation.
From Verif Require Import Base Spec ModelTransducer ModelDawg ModelQuery SpecDawg SpecQuery SpecDistance SpecAlphabet
  AlignProofs DistFacts PropsDawg TreeProofs HeapProofs IterProofs DawgProofs QueryProofs QueryFacts PropsQuery PropsRelated AlphabetProofs.
Local Open Scope nat_scope.

(** ** Distances *)

(** Other letters: the same distance if they are told apart, and never a larger one. *)
Theorem C111_letters : forall alg f v w d, returns alg v w d ->
  (apart f (v ++ w) -> returns alg (map f v) (map f w) d) /\
  (forall d', returns alg (map f v) (map f w) d' -> d' <= d).
Proof.
  intros alg f v w d H. to_dst. split; [intros A; apply returns_iff; symmetry; now apply dst_map|].
  intros d' H'. to_dst. apply dst_map_le.
Qed.
Print Assumptions C111_letters.

Example C111_letters_case : let f c := if ascii_dec c "k" then "s"%char else if ascii_dec c "s" then "k"%char else c in
  apart f (lit "kitten" ++ lit "sitting") /\ map f (lit "kitten") = lit "sitten" /\ map f (lit "sitting") = lit "kitting" /\
  returns STANDARD (lit "kitten") (lit "sitting") 3 /\ returns STANDARD (lit "sitten") (lit "kitting") 3 /\
  returns STANDARD (map (fun _ => "x"%char) (lit "kitten")) (map (fun _ => "x"%char) (lit "sitting")) 1.
Proof.
  split; [|split; [reflexivity|split; [reflexivity|repeat split; apply returns_iff; vm_compute; reflexivity]]].
  intros c d _ _. cbv zeta. destruct (ascii_dec c "k"), (ascii_dec d "k"), (ascii_dec c "s"), (ascii_dec d "s"); congruence.
Qed.

(** Backwards. *)
Theorem C111_backwards : forall alg v w d, returns alg v w d <-> returns alg (rev v) (rev w) d.
Proof. intros alg v w d. rewrite !returns_iff, dst_rev. tauto. Qed.
Print Assumptions C111_backwards.

Example C111_backwards_case : returns TRANSPOSITION (lit "CA") (lit "ABC") 3 /\ returns TRANSPOSITION (lit "AC") (lit "CBA") 3 /\
  returns MERGE_AND_SPLIT (lit "clog") (lit "dog") 1 /\ returns MERGE_AND_SPLIT (lit "golc") (lit "god") 1.
Proof. repeat split; apply returns_iff; vm_compute; reflexivity. Qed.

(** Strings that are joined are no farther from each other than their parts, and
    one of the strings can be cut anywhere: some cut of the other leaves parts whose
    distances add up to at most one more, for STANDARD to the same. *)
Theorem C111_joined : forall alg v1 v2 w1 w2 d1 d2 d, returns alg v1 w1 d1 -> returns alg v2 w2 d2 ->
  returns alg (v1 ++ v2) (w1 ++ w2) d -> d <= d1 + d2.
Proof. intros. to_dst. apply dst_join. Qed.
Print Assumptions C111_joined.

Theorem C111_cut : forall alg v1 v2 w d, returns alg (v1 ++ v2) w d ->
  exists w1 w2 d1 d2, w = w1 ++ w2 /\ returns alg v1 w1 d1 /\ returns alg v2 w2 d2 /\
    d <= d1 + d2 <= d + 1 /\ (alg = STANDARD -> d1 + d2 = d).
Proof.
  intros alg v1 v2 w d H. to_dst. destruct (dst_cut alg v1 v2 w) as (w1 & w2 & -> & L). pose proof (dst_join alg v1 w1 v2 w2).
  exists w1, w2, (dst alg v1 w1), (dst alg v2 w2). split; auto. split; [now apply returns_iff|]. split; [now apply returns_iff|].
  destruct alg; split; try lia; intros; try discriminate; lia.
Qed.
Print Assumptions C111_cut.

(** The one more cannot be avoided. *)
Theorem C111_cut_refuted : forall alg, alg <> STANDARD -> exists v1 v2 w d, returns alg (v1 ++ v2) w d /\
  forall w1 w2 d1 d2, w = w1 ++ w2 -> returns alg v1 w1 d1 -> returns alg v2 w2 d2 -> d1 + d2 = d + 1.
Proof.
  intros alg Na. destruct alg; [congruence| |].
  - exists (lit "a"), (lit "b"), (lit "ba"), 1. split; [apply returns_iff; vm_compute; reflexivity|].
    intros w1 w2 d1 d2 E R1 R2. to_dst.
    destruct w1 as [|x [|y [|z w1]]]; cbn in E; try discriminate.
    + subst w2. vm_compute. reflexivity.
    + injection E as <- <-. vm_compute. reflexivity.
    + injection E as <- <- <-. vm_compute. reflexivity.
  - exists (lit "a"), (lit "b"), (lit "c"), 1. split; [apply returns_iff; vm_compute; reflexivity|].
    intros w1 w2 d1 d2 E R1 R2. to_dst.
    destruct w1 as [|x [|y w1]]; cbn in E; try discriminate.
    + subst w2. vm_compute. reflexivity.
    + injection E as <- <-. vm_compute. reflexivity.
Qed.
Print Assumptions C111_cut_refuted.

Example C111_cut_case : returns STANDARD (lit "kit" ++ lit "ten") (lit "sit" ++ lit "ting") 3 /\
  returns STANDARD (lit "kit") (lit "sit") 1 /\ returns STANDARD (lit "ten") (lit "ting") 2.
Proof. repeat split; apply returns_iff; vm_compute; reflexivity. Qed.

(** Strings without a common character: only their lengths count.  With merges and
    splits, three characters at most are dealt with at a time. *)
Theorem C111_strange : forall v w ds dt dm, strange v w ->
  returns STANDARD v w ds -> returns TRANSPOSITION v w dt -> returns MERGE_AND_SPLIT v w dm ->
  ds = Nat.max (length v) (length w) /\ dt = Nat.max (length v) (length w) /\
  least (fun n => length v + length w <= 3 * n /\ length v <= length w + n /\ length w <= length v + n) dm.
Proof.
  intros v w ds dt dm S R1 R2 R3. to_dst. split; [exact (dst_strange STANDARD v w S)|]. split; [exact (dst_strange TRANSPOSITION v w S)|].
  pose proof (dst_strange MERGE_AND_SPLIT v w S) as M. cbn in M. split; [now apply M|]. intros n L. now apply M.
Qed.
Print Assumptions C111_strange.

Example C111_strange_case : strange (lit "abc") (lit "xyz") /\ returns STANDARD (lit "abc") (lit "xyz") 3 /\
  returns TRANSPOSITION (lit "abc") (lit "xyz") 3 /\ returns MERGE_AND_SPLIT (lit "abc") (lit "xyz") 2.
Proof.
  split; [|repeat split; apply returns_iff; vm_compute; reflexivity].
  intros c I J. repeat (destruct I as [<-|I]; [repeat (destruct J as [J|J]; [discriminate|]); destruct J|]). destruct I.
Qed.

(** ** Queries *)

Lemma scored_nodup : forall alg terms q n, NoDup (scored alg terms q n).
Proof.
  intros. apply NoDup_map_inv with (f := fst). unfold scored. rewrite map_map. cbn [fst]. rewrite map_id.
  pose proof (found_sorted alg terms q n) as S. induction S as [|a l S IH F]; constructor; auto.
  intros I. rewrite Forall_forall in F. exact (shortlex_irrefl _ (F _ I)).
Qed.

Lemma respelled_scored : forall g alg terms terms' q q' n, made_by g terms terms' ->
  (forall v w, In v terms -> In w terms -> g v = g w -> v = w) ->
  (forall w, In w terms -> dst alg q' (g w) = dst alg q w) ->
  Permutation (scored alg terms' q' n) (respelled g (scored alg terms q n)).
Proof.
  intros g alg terms terms' q q' n M Inj E. apply NoDup_Permutation; [apply scored_nodup| |].
  - unfold respelled. pose proof (scored_nodup alg terms q n) as N.
    assert (T : forall c, In c (scored alg terms q n) -> In (fst c) terms) by (intros (w & k) I; apply scored_In in I; apply I).
    induction N as [|(w & k) l Ni N IH]; cbn [map]; constructor; [|apply IH; intros; apply T; now right].
    intros I. apply in_map_iff in I. destruct I as ((w2 & k2) & E2 & I). cbn [fst snd] in E2. injection E2 as Eg ->.
    apply Inj in Eg; [|apply (T (w2, k)); now right|apply (T (w, k)); now left]. subst w2. contradiction.
  - intros (t & k). unfold respelled. rewrite in_map_iff, scored_In, edit_distance_dst. split.
    + intros (I & Ek & L). apply M in I. destruct I as (w & I & ->). exists (w, k). split; auto. apply scored_In.
      rewrite edit_distance_dst, <- E; auto.
    + intros ((w & k') & E' & I). cbn [fst snd] in E'. injection E' as <- ->. apply scored_In in I. rewrite edit_distance_dst in I.
      destruct I as (I & Ek & L). split; [apply M; eauto|]. split; auto. now rewrite E.
Qed.

Lemma respelled_sorted : forall g alg terms terms' q q' n, made_by g terms terms' ->
  (forall v w, In v terms -> In w terms -> shortlex_lt v w -> shortlex_lt (g v) (g w)) ->
  (forall w, In w terms -> dst alg q' (g w) = dst alg q w) ->
  scored alg terms' q' n = respelled g (scored alg terms q n).
Proof.
  intros g alg terms terms' q q' n M Mono E. unfold scored, respelled. rewrite map_map. cbn [fst snd].
  assert (F : found alg terms' q' n = map g (found alg terms q n)).
  { apply sorted_same; [apply found_sorted| |].
    - assert (T : forall w, In w (found alg terms q n) -> In w terms) by (intros w I; apply found_In in I; apply I).
      pose proof (found_sorted alg terms q n) as S. induction S as [|a l S IH F]; cbn [map]; constructor.
      + apply IH. intros w I. apply T. now right.
      + rewrite Forall_forall in *. intros t I. apply in_map_iff in I. destruct I as (w & <- & I).
        apply Mono; [apply T; now left|apply T; now right|now apply F].
    - intros t. rewrite found_In, in_map_iff. split.
      + intros (I & L). apply M in I. destruct I as (w & I & ->). exists w. split; auto. apply found_In. rewrite <- E; auto.
      + intros (w & <- & I). apply found_In in I. destruct I as (I & L). split; [apply M; eauto|]. now rewrite E. }
  rewrite F, map_map. apply map_ext_in. intros w I. apply found_In in I. f_equal. f_equal. apply E, I.
Qed.

Lemma limits_respelled : forall g terms terms' q n, made_by g terms terms' -> (forall v, length (g v) = length v) ->
  within_limits terms q n -> within_limits terms' (g q) n.
Proof.
  intros g terms terms' q n M Lg ((A & B) & C & D). split.
  - split; rewrite Lg; auto.
  - split; auto. intros t I. apply M in I. destruct I as (w & I & ->). rewrite Lg. auto.
Qed.

Lemma in_terms : forall (terms : list str) w (c : char), In w terms -> In c w -> In c (concat terms).
Proof. intros terms w c I J. apply in_concat. eauto. Qed.

Lemma map_apart : forall f l v w, apart f l -> (forall c, In c v -> In c l) -> (forall c, In c w -> In c l) -> map f v = map f w -> v = w.
Proof.
  intros f l v. induction v as [|c v IH]; intros [|d w] A Iv Iw E; try discriminate; auto. cbn in E. injection E as Ec Ev.
  f_equal; [apply A; auto; [apply Iv|apply Iw]; now left|]. apply IH; auto; intros x I; [apply Iv|apply Iw]; now right.
Qed.

(** Other letters, for the terms and the query: the same answers in the new
    spelling, at the same distances; in the same order if the letters keep theirs. *)
Theorem C111_query_letters : forall alg f terms terms' h d h' d' q n results results',
  dictionary terms h d -> dictionary terms' h' d' -> made_by (map f) terms terms' -> apart f (q ++ concat terms) ->
  within_limits terms q n ->
  yields as_candidate alg h d q n results -> yields as_candidate alg h' d' (map f q) n results' ->
  Permutation results' (respelled (map f) results) /\
  (keeps_order f (concat terms) -> results' = respelled (map f) results).
Proof.
  intros alg f terms terms' h d h' d' q n r r' D D' M A L Y Y'.
  pose proof (limits_respelled (map f) _ _ _ _ M (map_length f) L) as L'.
  pose proof (yields_det _ _ _ _ _ _ _ _ _ Y (candidates_main _ _ _ _ _ _ D L)) as ->.
  pose proof (yields_det _ _ _ _ _ _ _ _ _ Y' (candidates_main _ _ _ _ _ _ D' L')) as ->.
  assert (E : forall w, In w terms -> dst alg (map f q) (map f w) = dst alg q w).
  { intros w I. apply dst_map. eapply apart_less; [exact A|]. intros c J. apply in_or_app. apply in_app_or in J.
    destruct J; eauto using in_terms. }
  split.
  - apply respelled_scored; auto. intros v w Iv Iw. apply (map_apart f (q ++ concat terms)); auto;
      intros c I; apply in_or_app; eauto using in_terms.
  - intros K. apply respelled_sorted; auto. intros v w Iv Iw [Lt|(Eq & Lt)]; [left|right]; rewrite !map_length; auto.
    split; auto. apply slex_map; auto. intros c e Ic Ie. apply K; eauto using in_terms.
Qed.
Print Assumptions C111_query_letters.

(** Backwards: the same answers, backwards. *)
Theorem C111_query_backwards : forall alg terms terms' h d h' d' q n results results',
  dictionary terms h d -> dictionary terms' h' d' -> made_by (@rev char) terms terms' -> within_limits terms q n ->
  yields as_candidate alg h d q n results -> yields as_candidate alg h' d' (rev q) n results' ->
  Permutation results' (respelled (@rev char) results).
Proof.
  intros alg terms terms' h d h' d' q n r r' D D' M L Y Y'.
  pose proof (limits_respelled (@rev char) _ _ _ _ M (@rev_length char) L) as L'.
  pose proof (yields_det _ _ _ _ _ _ _ _ _ Y (candidates_main _ _ _ _ _ _ D L)) as ->.
  pose proof (yields_det _ _ _ _ _ _ _ _ _ Y' (candidates_main _ _ _ _ _ _ D' L')) as ->.
  apply respelled_scored; auto.
  - intros v w _ _ E. rewrite <- (rev_involutive v), E. apply rev_involutive.
  - intros w _. apply dst_rev.
Qed.
Print Assumptions C111_query_backwards.

Lemma slex_prefix : forall p v w, slex_lt v w -> slex_lt (p ++ v) (p ++ w).
Proof. intros p v w H. induction p as [|c p IH]; cbn; auto. now apply slex_tail. Qed.

Lemma slex_suffix : forall v w s, length v = length w -> slex_lt v w -> slex_lt (v ++ s) (w ++ s).
Proof.
  intros v w s E H. induction H as [b w|a b v w L|a v w H IH]; cbn [app length] in *; [lia|now apply slex_head|].
  apply slex_tail, IH. lia.
Qed.

(** Between the same beginning and ending: the same answers, in the same order. *)
Theorem C111_query_framed : forall alg p s terms terms' h d h' d' q n results results',
  dictionary terms h d -> dictionary terms' h' d' -> made_by (fun w => p ++ w ++ s) terms terms' ->
  within_limits terms q n -> within_limits terms' (p ++ q ++ s) n ->
  yields as_candidate alg h d q n results -> yields as_candidate alg h' d' (p ++ q ++ s) n results' ->
  results' = respelled (fun w => p ++ w ++ s) results.
Proof.
  intros alg p s terms terms' h d h' d' q n r r' D D' M L L' Y Y'.
  pose proof (yields_det _ _ _ _ _ _ _ _ _ Y (candidates_main _ _ _ _ _ _ D L)) as ->.
  pose proof (yields_det _ _ _ _ _ _ _ _ _ Y' (candidates_main _ _ _ _ _ _ D' L')) as ->.
  apply respelled_sorted; auto.
  - intros v w _ _ [Lt|(Eq & Lt)]; [left|right]; rewrite !app_length; [lia|]. split; [lia|].
    now apply slex_prefix, slex_suffix.
  - intros w _. now rewrite dst_app_l, dst_app_r.
Qed.
Print Assumptions C111_query_framed.

Definition upper (c : char) : char := if ascii_dec c "a" then "A"%char else if ascii_dec c "b" then "B"%char else if ascii_dec c "c" then "C"%char else if ascii_dec c "t" then "T"%char else c.

Lemma upper_apart : apart upper (cat ++ concat some_terms) /\ keeps_order upper (concat some_terms).
Proof.
  split; intros c d I J; cbn in I, J.
  - intros E. repeat (destruct I as [<-|I]; [repeat (destruct J as [<-|J]; [vm_compute in E; first [reflexivity|discriminate]|]); destruct J|]). destruct I.
  - intros E. repeat (destruct I as [<-|I]; [repeat (destruct J as [<-|J]; [revert E; vm_compute; first [reflexivity|discriminate]|]); destruct J|]). destruct I.
Qed.

Ltac witness := let try_it x := (exists x; split; [cbn; tauto|reflexivity]) in first [try_it sa|try_it sab|try_it scab|try_it scb].
Ltac made := intros t; split; [intros I; cbn in I; repeat (destruct I as [<-|I]; [witness|]); destruct I
  |intros (w & I & ->); cbn in I; repeat (destruct I as [<-|I]; [cbn; tauto|]); destruct I].

(** The dictionary of a, ab, cab, cb and what becomes of it. *)
Example C111_query_case :
  let built terms := match sorted_dawg 30 bump [] terms with Ok (h, Some b) => (h, b_dawg b) | _ => ([], Dawg null 0) end in
  let ask terms q n := query_all as_candidate 60 (fst (built terms)) (new_transducer STANDARD (d_root (snd (built terms)))) q n in
  made_by (map upper) some_terms [lit "A"; lit "AB"; lit "CAB"; lit "CB"] /\
  made_by (@rev char) some_terms [lit "a"; lit "ba"; lit "bac"; lit "bc"] /\
  made_by (fun w => lit "x" ++ w ++ lit "y") some_terms [lit "xaby"; lit "xay"; lit "xcaby"; lit "xcby"] /\
  ask some_terms cat 2%N = Ok [(sa, 2%N); (sab, 2%N); (scb, 2%N); (scab, 1%N)] /\
  ask [lit "A"; lit "AB"; lit "CAB"; lit "CB"] (lit "CAT") 2%N = Ok [(lit "A", 2%N); (lit "AB", 2%N); (lit "CB", 2%N); (lit "CAB", 1%N)] /\
  ask [lit "a"; lit "ba"; lit "bac"; lit "bc"] (lit "tac") 2%N = Ok [(lit "a", 2%N); (lit "ba", 2%N); (lit "bc", 2%N); (lit "bac", 1%N)] /\
  ask [lit "xaby"; lit "xay"; lit "xcaby"; lit "xcby"] (lit "xcaty") 2%N =
    Ok [(lit "xay", 2%N); (lit "xaby", 2%N); (lit "xcby", 2%N); (lit "xcaby", 1%N)].
Proof. cbv zeta. split; [made|]. split; [made|]. split; [made|]. repeat split; vm_compute; reflexivity. Qed.
