(** * C114: A query is about the string as it was when it was asked for.

    The transducer's result, and every query begun from it, have copies of the
    string: the client may change or destroy the string, the result, and other
    queries, in any order. *)
From Verif Require Import Base Spec ModelTransducer ModelDawg ModelQuery ModelCopies SpecDawg SpecQuery SpecCopies
  TreeProofs HeapProofs IterProofs DawgProofs QueryProofs QueryFacts PropsDawg PropsQuery.
Local Open Scope nat_scope.

Section Copies.
  Context {R : Type} (rt : result_type R).
  Variables (terms : list str) (h : heap) (d : dawg) (alg : algorithm).
  Hypothesis D : dictionary terms h d.
  Let t := new_transducer alg (d_root d).

  (** One object of the program and what it means. *)
  Definition means (strings : list (option str)) (x : option (thing R)) (v : option value) : Prop :=
    match x, v with
    | None, None => True
    | Some (Var p), Some (AString s) => nth_error strings p = Some (Some s)
    | Some (Iter p n len), Some (AFound q m) =>
        nth_error strings p = Some (Some q) /\ n = m /\ len = N.of_nat (length q) /\ within_limits terms q n
    | Some (Qry p n len it), Some (AQuery q m k) =>
        nth_error strings p = Some (Some q) /\ n = m /\ len = N.of_nat (length q) /\ within_limits terms q n /\
        stands_at rt alg h d q n k it
    | _, _ => False
    end.

  Record agrees (w : list (option str) * list (option (thing R))) (vals : list (option value)) : Prop := {
    ag_length : length (snd w) = length vals;
    ag_means : forall i x v, nth_error (snd w) i = Some x -> nth_error vals i = Some v -> means (fst w) x v;
    ag_apart : forall i j x y, nth_error (snd w) i = Some (Some x) -> nth_error (snd w) j = Some (Some y) -> home x = home y -> i = j;
    ag_owned : forall p s, nth_error (fst w) p = Some (Some s) -> exists i x, nth_error (snd w) i = Some (Some x) /\ home x = p }.

  Lemma put_length : forall A (l : list A) i x, length (put l i x) = length l.
  Proof. intros A l. induction l as [|a l IH]; intros [|i] x; cbn; auto. Qed.

  Lemma put_same : forall A (l : list A) i x y, nth_error l i = Some y -> nth_error (put l i x) i = Some x.
  Proof. intros A l. induction l as [|a l IH]; intros [|i] x y E; cbn in *; try discriminate; eauto. Qed.

  Lemma put_other : forall A (l : list A) i j x, j <> i -> nth_error (put l i x) j = nth_error l j.
  Proof. intros A l. induction l as [|a l IH]; intros [|i] [|j] x N; cbn; auto; try congruence. Qed.

  Lemma snoc_cases : forall A (l : list A) x i y, nth_error (l ++ [x]) i = Some y -> (i < length l /\ nth_error l i = Some y) \/ (i = length l /\ y = x).
  Proof.
    intros A l x i y E. destruct (Nat.lt_ge_cases i (length l)) as [L|L]; [left; rewrite nth_error_app1 in E; auto|right].
    rewrite nth_error_app2 in E by auto. destruct (i - length l) as [|[|k]] eqn:Ei; cbn in E; try discriminate. injection E as <-. split; [lia|auto].
  Qed.

  Lemma snoc_old : forall A (l : list A) x i y, nth_error l i = Some y -> nth_error (l ++ [x]) i = Some y.
  Proof. intros A l x i y E. rewrite nth_error_app1; auto. apply nth_error_Some. congruence. Qed.

  Lemma snoc_new : forall A (l : list A) x, nth_error (l ++ [x]) (length l) = Some x.
  Proof. intros A l x. rewrite nth_error_app2, Nat.sub_diag; auto. Qed.

  Lemma means_home : forall strings x v, means strings (Some x) (Some v) -> exists s, nth_error strings (home x) = Some (Some s).
  Proof. intros strings [p|p n len|p n len it] [s|q m|q m k]; cbn; intuition eauto. Qed.

  (** Only the string inside an object counts. *)
  Lemma means_kept : forall strings strings' x v,
    (forall o, x = Some o -> nth_error strings' (home o) = nth_error strings (home o)) -> means strings x v -> means strings' x v.
  Proof.
    intros strings strings' [o|] v E; [|destruct v; auto]. specialize (E o eq_refl).
    destruct o as [p|p n len|p n len it], v as [[s|q m|q m k]|]; cbn in *; rewrite ?E; auto.
  Qed.

  Lemma find_thing : forall strings things vals i v, agrees (strings, things) vals -> valid vals i = Some v ->
    exists x, nth_error things i = Some (Some x) /\ nth_error vals i = Some (Some v) /\ means strings (Some x) (Some v).
  Proof.
    intros strings things vals i v A V. unfold valid in V. destruct (nth_error vals i) as [[v'|]|] eqn:Ev; try discriminate. injection V as ->.
    destruct (nth_error things i) as [x|] eqn:Ex.
    - pose proof (ag_means _ _ A i _ _ Ex Ev) as M. cbn [fst] in M. destruct x as [x|]; [eauto|destruct v; contradiction].
    - apply nth_error_None in Ex. pose proof (ag_length _ _ A) as L. cbn in L. assert (nth_error vals i <> None) as N by congruence.
      apply nth_error_Some in N. lia.
  Qed.

  Lemma make_agrees : forall strings things vals s x v, agrees (strings, things) vals -> (forall p, home (x p) = p) ->
    (forall strings', nth_error strings' (length strings) = Some (Some s) -> means strings' (Some (x (length strings))) (Some v)) ->
    agrees (make (strings, things) s x) (vals ++ [Some v]).
  Proof.
    intros strings things vals s x v A Hx Mx. pose proof (ag_length _ _ A) as L. cbn [fst snd] in L.
    assert (Old : forall i o, nth_error things i = Some (Some o) -> home o < length strings).
    { intros i o E. destruct (nth_error vals i) as [v'|] eqn:Ev.
      - pose proof (ag_means _ _ A i _ _ E Ev) as M. destruct v' as [v'|]; [|destruct o; contradiction].
        destruct (means_home _ _ _ M) as (s' & Es). apply nth_error_Some. cbn in Es. congruence.
      - apply nth_error_None in Ev. assert (nth_error things i <> None) as N by congruence. apply nth_error_Some in N. lia. }
    constructor; cbn [make fst snd].
    - rewrite !app_length. cbn. lia.
    - intros i y w Ey Ew. apply snoc_cases in Ey, Ew. destruct Ey as [(Li & Ey)|(-> & ->)], Ew as [(Lj & Ew)|(Ej & ->)]; try lia.
      + eapply means_kept; [|exact (ag_means _ _ A i _ _ Ey Ew)]. intros o ->. cbn [fst]. apply nth_error_app1. eauto.
      + apply Mx, snoc_new.
    - intros i j y z Ey Ez Eh. apply snoc_cases in Ey, Ez. destruct Ey as [(Li & Ey)|(-> & Ey)], Ez as [(Lj & Ez)|(-> & Ez)]; auto.
      + exact (ag_apart _ _ A _ _ _ _ Ey Ez Eh).
      + injection Ez as ->. rewrite Hx in Eh. specialize (Old _ _ Ey). lia.
      + injection Ey as ->. rewrite Hx in Eh. specialize (Old _ _ Ez). lia.
    - intros p s' E. apply snoc_cases in E. destruct E as [(Lp & E)|(-> & E)].
      + destruct (ag_owned _ _ A _ _ E) as (i & o & Eo & Ho). exists i, o. split; auto. now apply snoc_old.
      + exists (length things), (x (length strings)). split; [apply snoc_new|apply Hx].
  Qed.

  (** Changing one object and its string leaves the others as they are. *)
  Lemma put_agrees : forall strings things vals i x s x' v, agrees (strings, things) vals -> nth_error things i = Some (Some x) ->
    (forall o, x' = Some o -> home o = home x) -> (x' = None -> s = None) -> (exists old, nth_error strings (home x) = Some old) ->
    means (put strings (home x) s) x' v -> agrees (put strings (home x) s, put things i x') (put vals i v).
  Proof.
    intros strings things vals i x s x' v A Ei Hx Hn (old & Eo) M. constructor; cbn [fst snd].
    - rewrite !put_length. exact (ag_length _ _ A).
    - intros j y w Ey Ew. destruct (Nat.eq_dec j i) as [->|Nj].
      + rewrite (put_same _ _ _ _ _ Ei) in Ey. injection Ey as <-.
        destruct (nth_error vals i) as [v0|] eqn:Ev; [rewrite (put_same _ _ _ _ _ Ev) in Ew; injection Ew as <-; exact M|].
        exfalso. apply nth_error_None in Ev. assert (nth_error (put vals i v) i <> None) as N by congruence. apply nth_error_Some in N.
        rewrite put_length in N. lia.
      + rewrite put_other in Ey, Ew by auto. eapply means_kept; [|exact (ag_means _ _ A _ _ _ Ey Ew)].
        intros o ->. cbn [fst]. apply put_other. intros E. apply Nj. exact (ag_apart _ _ A _ _ _ _ Ey Ei E).
    - intros j k y z Ey Ez Eh. destruct (Nat.eq_dec j i) as [->|Nj], (Nat.eq_dec k i) as [->|Nk]; auto.
      + rewrite (put_same _ _ _ _ _ Ei) in Ey. injection Ey as Ey. rewrite put_other in Ez by auto. rewrite (Hx _ Ey) in Eh.
        exact (ag_apart _ _ A _ _ _ _ Ei Ez Eh).
      + rewrite (put_same _ _ _ _ _ Ei) in Ez. injection Ez as Ez. rewrite put_other in Ey by auto. rewrite (Hx _ Ez) in Eh.
        exact (ag_apart _ _ A _ _ _ _ Ey Ei Eh).
      + rewrite put_other in Ey, Ez by auto. exact (ag_apart _ _ A _ _ _ _ Ey Ez Eh).
    - intros p s' E. destruct (Nat.eq_dec p (home x)) as [->|Np].
      + rewrite (put_same _ _ _ _ _ Eo) in E. injection E as ->. destruct x' as [o|]; [|specialize (Hn eq_refl); discriminate].
        exists i, o. split; [exact (put_same _ _ _ _ _ Ei)|now apply Hx].
      + rewrite put_other in E by auto. destruct (ag_owned _ _ A _ _ E) as (j & o & Ej & Ho).
        assert (j <> i) by (intros ->; cbn in Ej; rewrite Ei in Ej; injection Ej as <-; congruence).
        exists j, o. split; auto. now rewrite put_other.
  Qed.

  Lemma put_id : forall A (l : list A) i x, nth_error l i = Some x -> put l i x = l.
  Proof. intros A l. induction l as [|a l IH]; intros [|i] x E; cbn in *; try discriminate; [congruence|]. f_equal. auto. Qed.

  Lemma load_ok : forall strings p s, nth_error strings p = Some (Some s) -> load strings p = Ok s.
  Proof. intros strings p s E. unfold load. now rewrite E. Qed.

  Definition allowed (vals : list (option value)) (c : command) : Prop :=
    forall i n q, c = Ask i n -> valid vals i = Some (AString q) -> within_limits terms q n.

  Lemma obey_ok : forall w vals c vals', agrees w vals -> mean vals c = Some vals' -> allowed vals c ->
    exists w', runs_to (fun fuel => obey rt h t fuel w c) w' /\ agrees w' vals'.
  Proof.
    intros (strings & things) vals c vals' A E Al. destruct c as [s|i s|i n|i|i|i|i]; cbn [mean] in E.
    - injection E as <-. eexists. split; [exists 0; intros; cbn; reflexivity|]. apply (make_agrees _ _ _ s Var (AString s) A); auto.
    - destruct (valid vals i) as [[s0|q m|q m k]|] eqn:V; try discriminate. injection E as <-.
      destruct (find_thing _ _ _ _ _ A V) as ([p|p n len|p n len it] & Ex & Ev & M); try contradiction. cbn in M.
      exists (put strings p (Some s), things). split; [exists 0; intros; cbn; rewrite Ex; cbn; rewrite (load_ok _ _ _ M); reflexivity|].
      rewrite <- (put_id _ things i (Some (Var p)) Ex). apply (put_agrees strings things vals i (Var p) (Some s) (Some (Var p))); auto.
      + intros o Eo. injection Eo as <-. reflexivity.
      + discriminate.
      + cbn. eauto.
      + cbn. exact (put_same _ _ _ _ _ M).
    - destruct (valid vals i) as [[q|q m|q m k]|] eqn:V; try discriminate. injection E as <-.
      destruct (find_thing _ _ _ _ _ A V) as ([p|p n' len|p n' len it] & Ex & Ev & M); try contradiction. cbn in M.
      eexists. split; [exists 0; intros; cbn; rewrite Ex; cbn; rewrite (load_ok _ _ _ M); reflexivity|].
      apply (make_agrees _ _ _ q (fun p' => Iter p' n (N.of_nat (length q))) (AFound q n) A); auto.
      intros strings' Es. cbn. split; auto. split; auto. split; auto. exact (Al i n q eq_refl V).
    - destruct (valid vals i) as [[q|q m|q m k]|] eqn:V; try discriminate; injection E as <-.
      + destruct (find_thing _ _ _ _ _ A V) as ([p|p n' len|p n' len it] & Ex & Ev & M); try contradiction. cbn in M.
        eexists. split; [exists 0; intros; cbn; rewrite Ex; cbn; rewrite (load_ok _ _ _ M); reflexivity|].
        apply (make_agrees _ _ _ q Var (AString q) A); auto.
      + destruct (find_thing _ _ _ _ _ A V) as ([p|p n' len|p n' len it] & Ex & Ev & M); try contradiction. cbn in M. destruct M as (M & -> & -> & L).
        eexists. split; [exists 0; intros; cbn; rewrite Ex; cbn; rewrite (load_ok _ _ _ M); reflexivity|].
        apply (make_agrees _ _ _ q (fun p' => Iter p' m (N.of_nat (length q))) (AFound q m) A); auto.
        intros strings' Es. cbn. auto.
    - destruct (valid vals i) as [[q|q m|q m k]|] eqn:V; try discriminate. injection E as <-.
      destruct (find_thing _ _ _ _ _ A V) as ([p|p n' len|p n' len it] & Ex & Ev & M); try contradiction. cbn in M. destruct M as (M & -> & -> & L).
      destruct (query_after_main _ rt alg terms h d q m 0 D L) as (it & St & _). pose proof St as [e E].
      exists (make (strings, things) q (fun p' => Qry p' m (N.of_nat (length q)) it)). split.
      + exists e. intros fuel Hf. specialize (E fuel Hf). unfold query_after in E. fold t in E.
        unfold obey. rewrite Ex. cbn [rbind]. rewrite (load_ok _ _ _ M). cbn [rbind]. rewrite N.eqb_refl.
        destruct (begin_query rt fuel h t q m) as [q0| |]; cbn in E; try discriminate. injection E as ->. reflexivity.
      + apply (make_agrees _ _ _ q (fun p' => Qry p' m (N.of_nat (length q)) it) (AQuery q m 0) A); auto.
        intros strings' Es. cbn. auto.
    - destruct (valid vals i) as [[q|q m|q m k]|] eqn:V; try discriminate. injection E as <-.
      destruct (find_thing _ _ _ _ _ A V) as ([p|p n' len|p n' len it] & Ex & Ev & M); try contradiction. cbn in M. destruct M as (M & -> & -> & L & St).
      destruct (query_after_main _ rt alg terms h d q m (S k) D L) as (it' & St' & _).
      destruct (stands_at_step _ _ _ _ _ _ _ _ _ _ St St') as [e E].
      exists (strings, put things i (Some (Qry p m (N.of_nat (length q)) it'))). split.
      + exists e. intros fuel Hf. specialize (E fuel Hf). unfold obey. rewrite Ex. cbn [rbind]. rewrite (load_ok _ _ _ M). cbn [rbind].
        rewrite N.eqb_refl. unfold t. cbn [tr_alg new_transducer]. rewrite E. reflexivity.
      + rewrite <- (put_id _ strings p (Some q) M).
        apply (put_agrees strings things vals i (Qry p m (N.of_nat (length q)) it) (Some q)); auto.
        * intros o Eo. injection Eo as <-. reflexivity.
        * discriminate.
        * cbn. eauto.
        * cbn. rewrite (put_same _ _ _ _ _ M). auto.
    - destruct (valid vals i) as [v|] eqn:V; try discriminate. injection E as <-.
      destruct (find_thing _ _ _ _ _ A V) as (x & Ex & Ev & M). destruct (means_home _ _ _ M) as (s & Es).
      exists (put strings (home x) None, put things i None). split.
      + exists 0. intros fuel _. cbn. rewrite Ex. cbn. rewrite (load_ok _ _ _ Es). reflexivity.
      + apply put_agrees; auto; [discriminate|eauto|exact I].
  Qed.

  Lemma obey_all_ok : forall cs w vals vals', agrees w vals -> mean_all vals cs = Some vals' ->
    (forall before c after mid, cs = before ++ c :: after -> mean_all vals before = Some mid -> allowed mid c) ->
    exists w', runs_to (fun fuel => obey_all rt h t fuel w cs) w' /\ agrees w' vals'.
  Proof.
    induction cs as [|c cs IH]; intros w vals vals' A E Al; cbn [mean_all] in E.
    - injection E as <-. exists w. split; auto. exists 0. auto.
    - destruct (mean vals c) as [mid|] eqn:Ec; [|discriminate].
      destruct (obey_ok w vals c mid A Ec (Al [] c cs vals eq_refl eq_refl)) as (w1 & [e1 E1] & A1).
      destruct (IH w1 mid vals' A1 E) as (w2 & [e2 E2] & A2).
      + intros before c' after m Eq Em. apply (Al (c :: before) c' after m); [now rewrite Eq|]. cbn [mean_all]. now rewrite Ec.
      + exists w2. split; auto. exists (Nat.max e1 e2). intros fuel Hf. cbn [obey_all]. rewrite E1 by lia. cbn [rbind]. apply E2. lia.
  Qed.
End Copies.

(** Whatever the client does with strings, results of the transducer and queries in
    whatever order, as long as it uses no object that is gone: nothing is undefined,
    and every query shows what belongs to the string as it was when asked for.  There
    is exactly one string object inside every object that is alive, and no other. *)
Theorem C114_copies : forall R (rt : result_type R) alg terms h d commands vals, dictionary terms h d ->
  mean_all [] commands = Some vals ->
  (forall before i n after mid q, commands = before ++ Ask i n :: after -> mean_all [] before = Some mid ->
     valid mid i = Some (AString q) -> within_limits terms q n) ->
  exists strings things,
    runs_to (fun fuel => obey_all rt h (new_transducer alg (d_root d)) fuel ([], []) commands) (strings, things) /\
    (forall i q n k results, valid vals i = Some (AQuery q n k) -> yields rt alg h d q n results ->
       exists p len it, nth_error things i = Some (Some (Qry p n len it)) /\ nth_error strings p = Some (Some q) /\
         match nth_error results k with
         | Some r => q_complete it = false /\ q_candidate it = r
         | None => q_complete it = true
         end) /\
    (forall i s, valid vals i = Some (AString s) -> exists p, nth_error things i = Some (Some (Var p)) /\ nth_error strings p = Some (Some s)) /\
    (forall i x, nth_error things i = Some (Some x) -> exists s, nth_error strings (home x) = Some (Some s)) /\
    (forall i, (exists x, nth_error things i = Some (Some x)) <-> exists v, valid vals i = Some v) /\
    (forall p s, nth_error strings p = Some (Some s) -> exists i x, nth_error things i = Some (Some x) /\ home x = p) /\
    (forall i j x y, nth_error things i = Some (Some x) -> nth_error things j = Some (Some y) -> home x = home y -> i = j).
Proof.
  intros R rt alg terms h d cs vals D E L.
  destruct (obey_all_ok rt terms h d alg D cs ([], []) [] vals) as ((strings & things) & Ru & A); auto.
  { constructor; cbn [fst snd]; auto; intros [|i]; discriminate. }
  { intros before c after mid Eq Em i n q -> V. eapply L; eauto. }
  exists strings, things. split; [exact Ru|]. split; [|split; [|split; [|split; [|split]]]].
  - intros i q n k results V Y. destruct (find_thing _ _ _ _ _ _ _ _ _ _ A V) as ([p|p n' len|p n' len it] & Ex & Ev & M); try contradiction.
    cbn in M. destruct M as (M & -> & -> & Lq & St). exists p, (N.of_nat (length q)), it. split; [auto|split; [auto|]].
    destruct (query_after_main _ rt alg terms h d q n k D Lq) as (it' & St' & Sh).
    pose proof (runs_to_det _ _ _ _ St St') as <-. pose proof (yields_det _ _ _ _ _ _ _ _ _ Y (query_all_main _ rt alg terms h d q n D Lq)) as ->.
    rewrite nth_error_map. destruct (nth_error (scored alg terms q n) k); cbn; [exact Sh|apply Sh].
  - intros i s V. destruct (find_thing _ _ _ _ _ _ _ _ _ _ A V) as ([p|p n' len|p n' len it] & Ex & Ev & M); try contradiction.
    cbn in M. exists p. split; auto.
  - intros i x Ex. destruct (nth_error vals i) as [v|] eqn:Ev.
    + pose proof (ag_means _ _ _ _ _ _ _ A i _ _ Ex Ev) as M. destruct v as [v|]; [eapply means_home; exact M|destruct x; contradiction].
    + exfalso. apply nth_error_None in Ev. pose proof (ag_length _ _ _ _ _ _ _ A) as Le. cbn in Le.
      assert (nth_error things i <> None) as N by congruence. apply nth_error_Some in N. lia.
  - intros i. split.
    + intros (x & Ex). unfold valid. destruct (nth_error vals i) as [v|] eqn:Ev.
      * pose proof (ag_means _ _ _ _ _ _ _ A i _ _ Ex Ev) as M. destruct v as [v|]; [eauto|destruct x; contradiction].
      * exfalso. apply nth_error_None in Ev. pose proof (ag_length _ _ _ _ _ _ _ A) as Le. cbn in Le.
        assert (nth_error things i <> None) as N by congruence. apply nth_error_Some in N. lia.
    + intros (v & V). destruct (find_thing _ _ _ _ _ _ _ _ _ _ A V) as (x & Ex & _). eauto.
  - exact (ag_owned _ _ _ _ _ _ _ A).
  - exact (ag_apart _ _ _ _ _ _ _ A).
Qed.
Print Assumptions C114_copies.

(** The string is changed before the query is begun, and then everything but the
    query is destroyed; a second query is begun from a copy of the result. *)
Definition changing : list command :=
  [NewString cat; Ask 0 2%N; Assign 0 (lit "zzzzz"); Begin 1; CopyOf 1; Destroy 0; Next 2; Destroy 1; Begin 3; Destroy 3; Next 2; Next 2].

Example C114_case :
  mean_all [] changing = Some [None; None; Some (AQuery cat 2 3); None; Some (AQuery cat 2 0)] /\
  (forall before i n after mid q, changing = before ++ Ask i n :: after -> mean_all [] before = Some mid ->
     valid mid i = Some (AString q) -> within_limits some_terms q n) /\
  match obey_all as_candidate example_heap (new_transducer STANDARD (d_root example_dawg)) 40 ([], []) changing with
  | Ok (strings, things) => Some (strings, map (fun x => match x with Some (Qry p _ _ it) => Some (p, q_candidate it) | _ => None end) things)
  | _ => None
  end = Some ([None; None; Some cat; None; Some cat], [None; None; Some (2, (scab, 1%N)); None; Some (4, (sa, 2%N))]).
Proof.
  split; [vm_compute; reflexivity|]. split; [|vm_compute; reflexivity].
  intros before i n after mid q E M V. unfold changing in E.
  destruct before as [|c0 before]; [discriminate|]. injection E as <- E.
  destruct before as [|c1 before].
  - injection E as <- <- <-. cbn in M. injection M as <-. cbn in V. injection V as <-. apply example_limits. discriminate.
  - exfalso. apply (f_equal (@tl command)) in E. cbn [tl app] in E.
    do 10 (destruct before as [|? before]; [discriminate E|apply (f_equal (@tl command)) in E; cbn [tl app] in E]).
    destruct before; discriminate E.
Qed.

(** A query must not be used when it is gone, nor begun from a result that is gone. *)
Theorem C114_gone : forall R (rt : result_type R) h t fuel strings things i,
  (forall x, nth_error things i <> Some (Some x)) ->
  obey rt h t fuel (strings, things) (Begin i) = UB /\ obey rt h t fuel (strings, things) (Next i) = UB /\
  forall n, obey rt h t fuel (strings, things) (Ask i n) = UB.
Proof.
  intros R rt h t fuel strings things i N. cbn. destruct (nth_error things i) as [[x|]|]; [exfalso; now apply (N x)| |]; auto.
Qed.
Print Assumptions C114_gone.
