(** * StepsSession: one thread and its dictionaries. *)
From Coq Require Import Permutation Relations Wf_nat.
From Verif Require Import Base Spec ModelHash ModelTransducer ModelDawg ModelQuery ModelSerial SpecDawg SpecQuery TreeProofs HeapProofs BuildProofs BuildProofs2
  IterProofs DawgProofs DistProofs SerialProofs QueryFacts PropsDawg ModelSteps SpecSteps StepsAlone StepsProofs.
Set Implicit Arguments. Unset Strict Implicit.
Local Open Scope nat_scope.

(** ** Several memories in one *)

(** [h1]: what was there before; [w]: the whole memory; [ms]: memories that
    belong to different owners. *)
Record fits (h1 w : heap) (ms : list heap) : Prop := Fits {
  f_old : forall a n, hget h1 a = Some n -> hget w a = Some n;
  f_in : forall i m, nth_error ms i = Some m -> sub m w;
  f_own : forall i j m m', i <> j -> nth_error ms i = Some m -> nth_error ms j = Some m' ->
    forall a n, hget m a = Some n -> hget m' a = None;
  f_all : forall a n, hget w a = Some n ->
    hget h1 a = Some n \/ exists i m, nth_error ms i = Some m /\ hget m a = Some n;
  f_sep : forall i m, nth_error ms i = Some m -> sep m h1 }.

Lemma nth_error_put {A} (l1 l2 : list A) x y i :
  nth_error (l1 ++ y :: l2) i = if i =? length l1 then Some y else nth_error (l1 ++ x :: l2) i.
Proof. revert i. induction l1 as [|z l1 IH]; intros [|i]; cbn; auto. Qed.
Lemma nth_error_here {A} (l1 l2 : list A) x : nth_error (l1 ++ x :: l2) (length l1) = Some x.
Proof. rewrite nth_error_app2, Nat.sub_diag; [reflexivity|lia]. Qed.

Lemma fits_event h1 w l1 m l2 a e : fits h1 w (l1 ++ m :: l2) -> hget h1 a = None ->
  (forall j m', j <> length l1 -> nth_error (l1 ++ m :: l2) j = Some m' -> hget m' a = None) ->
  fits h1 ((a, e) :: w) (l1 ++ ((a, e) :: m) :: l2).
Proof.
  intros F N1 No. pose proof (nth_error_here l1 l2 m) as Mi.
  assert (S : forall i m', nth_error (l1 ++ ((a, e) :: m) :: l2) i = Some m' ->
    (i = length l1 /\ m' = (a, e) :: m) \/ (i <> length l1 /\ nth_error (l1 ++ m :: l2) i = Some m' /\ hget m' a = None)).
  { intros i m' H. rewrite (nth_error_put l1 l2 m) in H. destruct (Nat.eqb_spec i (length l1)).
    - left. injection H as <-. auto.
    - right. eauto. }
  constructor.
  - intros b x H. rewrite hget_cons. destruct (N.eqb_spec b a); [subst; congruence|]. apply (f_old F H).
  - intros i m' H b x G. rewrite hget_cons. destruct (S i m' H) as [[-> ->]|(Ni & H' & Fr)].
    + rewrite hget_cons in G. destruct (N.eqb_spec b a); [exact G|]. exact (f_in F Mi G).
    + destruct (N.eqb_spec b a); [subst; congruence|]. exact (f_in F H' G).
  - intros i j m1 m2 Nij H1 H2 b x L.
    destruct (S i m1 H1) as [[-> ->]|(Ni & H1' & Fr1)], (S j m2 H2) as [[-> ->]|(Nj & H2' & Fr2)].
    + contradiction.
    + rewrite hget_cons in L. destruct (N.eqb_spec b a); [subst; exact Fr2|]. exact (f_own F Nij Mi H2' L).
    + rewrite hget_cons. destruct (N.eqb_spec b a); [subst; congruence|]. exact (f_own F Nij H1' Mi L).
    + exact (f_own F Nij H1' H2' L).
  - intros b x G. rewrite hget_cons in G. destruct (N.eqb_spec b a) as [->|Nb].
    + right. exists (length l1), ((a, e) :: m). split; [apply nth_error_here|].
      rewrite hget_cons, N.eqb_refl. exact G.
    + destruct (f_all F G) as [G'|(i & m' & Hi & L)]; [auto|]. right.
      destruct (Nat.eq_dec i (length l1)) as [->|Ni].
      * assert (m' = m) as -> by congruence. exists (length l1), ((a, e) :: m).
        split; [apply nth_error_here|]. rewrite hget_cons. destruct (N.eqb_spec b a); [contradiction|exact L].
      * exists i, m'. split; [|exact L]. rewrite (nth_error_put l1 l2 m). apply Nat.eqb_neq in Ni. now rewrite Ni.
  - intros i m' H b I. destruct (S i m' H) as [[-> ->]|(Ni & H' & _)]; [|exact (f_sep F H' I)].
    destruct I as [<-|I]; [exact N1|exact (f_sep F Mi I)].
Qed.

Lemma fits_events h1 w l1 m l2 ev : fits h1 w (l1 ++ m :: l2) ->
  (forall a, In a (map fst ev) -> hget h1 a = None /\
    forall j m', j <> length l1 -> nth_error (l1 ++ m :: l2) j = Some m' -> hget m' a = None) ->
  fits h1 (ev ++ w) (l1 ++ (ev ++ m) :: l2).
Proof.
  intros F. induction ev as [|[a e] ev IH]; intros H; [exact F|]. cbn [app]. destruct (H a (or_introl eq_refl)) as [H1 H2].
  apply fits_event; [apply IH; intros b I; apply H; now right|exact H1|].
  intros j m' Nj Hj. apply (H2 j m' Nj). rewrite (nth_error_put l1 l2 m) in Hj. apply Nat.eqb_neq in Nj. now rewrite Nj in Hj.
Qed.

Lemma fits_more h1 w ms : fits h1 w ms -> fits h1 w (ms ++ [[]]).
Proof.
  intros F.
  assert (S : forall i m, nth_error (ms ++ [[]]) i = Some m -> nth_error ms i = Some m \/ m = []).
  { intros i m H. destruct (Nat.lt_ge_cases i (length ms)).
    - left. now rewrite nth_error_app1 in H.
    - rewrite nth_error_app2 in H by assumption. right. destruct (i - length ms) as [|[|k]]; cbn in H; congruence. }
  constructor.
  - apply F.
  - intros i m H. destruct (S i m H) as [H'| ->]; [exact (f_in F H')|]. intros a n G. discriminate.
  - intros i j m m' Nij Hi Hj a n G. destruct (S i m Hi) as [Hi'| ->]; [|discriminate].
    destruct (S j m' Hj) as [Hj'| ->]; [|reflexivity]. exact (f_own F Nij Hi' Hj' G).
  - intros a n G. destruct (f_all F G) as [|(i & m & Hi & G')]; [auto|]. right. exists i, m. split; [|exact G'].
    rewrite nth_error_app1; [exact Hi|]. apply nth_error_Some. congruence.
  - intros i m H. destruct (S i m H) as [H'| ->]; [exact (f_sep F H')|]. intros a [].
Qed.

(** ** A dictionary in a memory of its own *)
Definition W64 : N := (2 ^ 64)%N.
Definition counts (d : dawg) (ts : list str) : Prop := d_size d = (N.of_nat (length ts) mod W)%N.

Definition slot_ok (fuel : nat) (u : heap) (s : stage) (o : option builder) : Prop :=
  match s, o with
  | Growing kept, Some b => counts (b_dawg b) kept /\ ascending kept /\ b_prev b = last kept [] /\
      exists w frs t0, binv fuel [] u b (trie kept) w frs t0
  | Ready terms, Some b => counts (b_dawg b) terms /\ ascending terms /\ unf u (d_root (b_dawg b)) (trie terms) /\
      ((exists w, b_work b = Some w /\ inv fuel [] u (d_root (b_dawg b)) w [] (trie terms)) \/
       (b_work b = None /\ forall a, ~ reach u (d_root (b_dawg b)) a -> hget u a = None))
  | Gone, None => forall a, hget u a = None
  | _, _ => False
  end.

Definition swt (s : stage) : nat := match s with Growing ts | Ready ts => 2 * weight ts | Gone => 0 end.

Section Region.
  Variables (al : heap -> ptr) (fuel : nat).
  Hypothesis HA : allocator al.

  Lemma region_begin : 1 <= fuel ->
    exists u b, alone al s_new_sorted_dawg [] = Ok (u, b) /\ slot_ok fuel u (Growing []) (Some (init b)).
  Proof.
    intros Hf. rewrite new_sorted_dawg_alone. destruct (new_sorted_dawg al []) as [u b] eqn:E.
    destruct (new_sorted_dawg_ok al fuel [] HA Hf u b E) as (BI & P & S).
    exists u, b. split; [reflexivity|]. split; [exact S|]. split; [constructor|]. split; [exact P|].
    exists (Work [] [] []), [], leaf. exact BI.
  Qed.

  Lemma snoc_ascending kept term : ascending kept -> ~ lex_lt term (last kept []) -> ascending (kept ++ [term]).
  Proof.
    intros A. unfold ascending in *. induction A as [|x|x y l L A IH]; intros N; cbn [app].
    - constructor.
    - constructor; [|constructor]. now apply lex_le_not_lt.
    - constructor; [exact L|]. apply IH. exact N.
  Qed.
  Lemma last_snoc {A} (l : list A) x d : last (l ++ [x]) d = x.
  Proof. induction l as [|y l IH]; [reflexivity|]. cbn. destruct (l ++ [x]) eqn:E; [destruct l; discriminate|exact IH]. Qed.
  Lemma count_snoc n : wadd (N.of_nat n mod W) 1 = (N.of_nat (S n) mod W)%N.
  Proof. unfold wadd. rewrite N.add_mod_idemp_l by (unfold W; lia). f_equal. lia. Qed.

  Lemma region_add u kept b term : slot_ok fuel u (Growing kept) (Some b) -> length term < fuel ->
    ~ lex_lt term (last kept []) ->
    exists u' b', alone al (s_add fuel b term) u = Ok (u', (true, b')) /\
      slot_ok fuel u' (Growing (kept ++ [term])) (Some b').
  Proof.
    intros (C & A & P & w & frs & t0 & BI) L N.
    destruct (add_ok al fuel [] u b _ w frs t0 term HA BI L) as (u' & b' & w' & frs' & t0' & E & BI' & P' & R & S).
    { now rewrite P. }
    exists u', b'. rewrite add_alone, E by lia. split; [reflexivity|]. split; [|split; [|split]].
    - unfold counts in *. rewrite S, C, app_length. cbn [length]. rewrite Nat.add_1_r. apply count_snoc.
    - now apply snoc_ascending.
    - now rewrite last_snoc.
    - rewrite trie_app. eauto.
  Qed.
  Lemma region_reject u kept b term : slot_ok fuel u (Growing kept) (Some b) -> lex_lt term (last kept []) ->
    alone al (s_add fuel b term) u = Ok (u, (false, b)).
  Proof. intros (C & A & P & _) L. rewrite add_alone, add_reject by now rewrite P. reflexivity. Qed.

  Lemma region_finish u kept b : slot_ok fuel u (Growing kept) (Some b) ->
    exists u' b', alone al (s_finish fuel b) u = Ok (u', b') /\ slot_ok fuel u' (Ready kept) (Some b').
  Proof.
    intros (C & A & P & w & frs & t0 & BI).
    destruct (finish_ok fuel [] u b _ w frs t0 BI) as (u' & w' & E & I & Un).
    exists u', (Builder (b_dawg b) (b_prev b) (Some w')). rewrite finish_alone, E by lia. split; [reflexivity|].
    split; [exact C|]. split; [exact A|]. cbn [b_dawg b_work]. split; [|left; eauto].
    pose proof (iv_top _ _ _ _ _ _ _ I) as U. rewrite Un in U. exact U.
  Qed.

  Lemma region_destroy u s b : slot_ok fuel u s (Some b) -> swt s + 3 <= fuel ->
    exists u', alone al (s_destroy fuel b) u = Ok (u', tt) /\ slot_ok fuel u' Gone None.
  Proof.
    intros Sl Hf. rewrite destroy_alone.
    assert (X : exists u', destroy fuel u b = Ok u' /\ forall a, hget u' a = None).
    { destruct s as [kept|terms|]; [| |destruct Sl]; cbn [swt] in Hf.
      - destruct Sl as (C & A & P & w & frs & t0 & BI). destruct (growing_tree BI) as (tr & U & L).
        pose proof (tsize_trie kept).
        destruct (destroy_ok fuel [] u b w frs t0 (bi_work _ _ _ _ _ _ _ _ BI) (bi_inv _ _ _ _ _ _ _ _ BI)) as (en & u' & E & S).
        exists u'. split; [|exact S]. rewrite (@destroy_fuel fuel [] u b w frs t0 tr fuel (Nat.max fuel en)); try lia.
        + apply E. lia.
        + apply BI.
        + apply BI.
        + exact U.
      - destruct Sl as (C & A & U & [(w & Wk & I)|(Wk & Bu)]); pose proof (tsize_trie terms).
        + destruct (destroy_ok fuel [] u b w [] (trie terms) Wk I) as (en & u' & E & S).
          exists u'. split; [|exact S].
          rewrite (@destroy_fuel fuel [] u b w [] (trie terms) (trie terms) fuel (Nat.max fuel en)); try lia; auto.
          apply E. lia.
        + destruct (cleaned_destroy_ok [] u b (trie terms) Wk U) as (u' & [en E] & S); [reflexivity|exact Bu|]. exists u'. split; [|exact S].
          rewrite <- (E (Nat.max fuel en)) by lia. unfold destroy, clean_up. rewrite Wk. cbn [rbind].
          apply destroy_dawg_fuel with (tr := trie terms); auto; lia. }
    destruct X as (u' & -> & G). exists u'. split; [reflexivity|exact G].
  Qed.

  Lemma region_add_all : forall terms u kept b, slot_ok fuel u (Growing kept) (Some b) ->
    2 * weight kept + 2 * weight terms + 3 <= fuel ->
    exists u' o, alone al (s_add_all fuel b terms) u = Ok (u', o) /\
      ((ascending (kept ++ terms) /\ exists b', o = Some b' /\ slot_ok fuel u' (Growing (kept ++ terms)) (Some b')) \/
       (~ ascending (kept ++ terms) /\ o = None /\ slot_ok fuel u' Gone None)).
  Proof.
    induction terms as [|t terms IH]; intros u kept b Sl Hf; cbn [s_add_all weight] in *.
    - exists u, (Some b). split; [reflexivity|]. left. rewrite app_nil_r. split; [apply Sl|eauto].
    - rewrite alone_andthen. destruct (lex_lt_dec t (last kept [])) as [L|L].
      + rewrite (region_reject Sl L). cbn [rbind]. rewrite alone_andthen.
        destruct (region_destroy Sl) as (u' & E & G); [cbn [swt]; lia|]. rewrite E. cbn [rbind alone].
        exists u', None. split; [reflexivity|]. right. split; [|auto]. intros A. clear - L A.
        unfold ascending in A. induction kept as [|x kept IH]; cbn [app last] in *.
        * inversion L.
        * destruct kept as [|y kept]; [|apply IH; [exact L|now inversion A]]. cbn [app] in A. inversion A; subst.
          eapply lex_le_not_lt; eauto.
      + destruct (region_add (term := t) Sl) as (u1 & b1 & E & Sl1); [lia|exact L|]. rewrite E. cbn [rbind].
        destruct (IH u1 (kept ++ [t]) b1 Sl1) as (u' & o & E' & H).
        { rewrite weight_app. cbn [weight]. lia. }
        rewrite <- app_assoc in H. exists u', o. auto.
  Qed.

  Lemma region_build terms : 2 * weight terms + 3 <= fuel ->
    exists u o, alone al (s_sorted_dawg fuel terms) [] = Ok (u, o) /\
      ((ascending terms /\ exists b, o = Some b /\ slot_ok fuel u (Ready terms) (Some b)) \/
       (~ ascending terms /\ o = None /\ slot_ok fuel u Gone None)).
  Proof.
    intros Hf. unfold s_sorted_dawg. rewrite alone_andthen. destruct region_begin as (u0 & b0 & E0 & Sl0); [lia|].
    rewrite E0. cbn [rbind]. rewrite alone_andthen.
    destruct (region_add_all (terms := terms) Sl0) as (u1 & o & E1 & H); [cbn [weight]; lia|]. rewrite E1. cbn [rbind].
    destruct H as [(A & b1 & -> & Sl1)|(A & -> & Sl1)]; cbn [app] in *.
    - rewrite alone_andthen. destruct (region_finish Sl1) as (u2 & b2 & E2 & Sl2). rewrite E2. cbn [rbind].
      rewrite alone_andthen, clean_up_alone. pose proof (tsize_trie terms).
      destruct Sl2 as (C & _ & U & Wk).
      assert (X : exists w, b_work b2 = Some w /\ inv fuel [] u2 (d_root (b_dawg b2)) w [] (trie terms) /\ w_unchecked w = []).
      { clear - E2 Sl1. destruct Sl1 as (C & A & P & w & frs & t0 & BI).
        destruct (finish_ok fuel [] u1 b1 _ w frs t0 BI) as (u' & w' & E & I & Un).
        rewrite finish_alone, E in E2 by lia. injection E2 as <- <-. exists w'. cbn [b_work b_dawg]. auto. }
      destruct X as (w & Wk2 & I & Un).
      destruct (clean_up_ok fuel [] u2 b2 w [] _ Wk2 I) as (en & u3 & E3 & C1 & C2).
      rewrite (@clean_up_fuel u2 b2 (trie terms) fuel (Nat.max fuel en)) by (auto; lia). rewrite E3 by lia.
      exists u3, (Some (Builder (b_dawg b2) (b_prev b2) None)). split; [reflexivity|]. left. split; [exact A|].
      exists (Builder (b_dawg b2) (b_prev b2) None). split; [reflexivity|].
      assert (Bu : built [] u3 (b_dawg b2) terms).
      { unfold counts in C. destruct (b_dawg b2) as [root size]. cbn [d_root d_size] in *. eapply built_clean; eauto. }
      split; [exact C|]. split; [exact A|]. cbn [b_dawg b_work]. split; [apply Bu|]. right. split; [reflexivity|exact (bu_rest _ _ _ _ Bu)].
    - exists u1, None. cbn [alone]. split; [reflexivity|]. right. auto.
  Qed.
End Region.

(** ** What is read *)
Lemma unf_sub h h' : sub h h' -> forall t p, unf h p t -> unf h' p t.
Proof.
  intros S t p U. eapply unf_frame with (P := reach h p); eauto using reach_closed, reach_refl.
  intros q R. destruct (unf_reach_alloc _ _ _ _ U R) as (_ & n & G). rewrite G. now apply S.
Qed.

(** The dictionary [d] with these terms is in memory [h] and may be read. *)
Definition readable (h : heap) (d : dawg) (terms : list str) : Prop :=
  counts d terms /\ ascending terms /\ unf h (d_root d) (trie terms).

Section Reading.
  Variables (fuel : nat) (h : heap).

  Lemma read_contains d terms term : readable h d terms -> (N.of_nat (length term) <= 2147483647)%N ->
    exists r, contains h d term = Ok r /\ (r = true <-> In term terms).
  Proof.
    intros (_ & _ & U) L. exists (tin (trie terms) term). split; [now apply contains_ok|]. apply tin_trie.
  Qed.

  Lemma read_list d terms : readable h d terms -> 2 * weight terms + 6 <= fuel -> (N.of_nat (length terms) < 2 ^ 64)%N ->
    exists out, iterate fuel h d = Ok out /\ listing terms out.
  Proof.
    intros (C & _ & U) Hf L. pose proof (tsize_trie terms) as Ts.
    pose proof (trie_sorted terms) as TS. pose proof (words_sorted _ TS) as WS.
    assert (I : forall w, In w (words (trie terms)) <-> In w terms).
    { intros w. rewrite words_In by auto. apply tin_trie. }
    assert (E : d_size d = N.of_nat (length terms)). { rewrite C. apply N.mod_small. exact L. }
    eexists. split.
    { apply iterate_ok with (t := trie terms) (n := length terms); auto; [lia|]. rewrite E. exact L. }
    exists (words (trie terms)).
    assert (ND : NoDup (words (trie terms))) by (eapply StronglySorted_NoDup; eauto using shortlex_irrefl).
    split; [auto|]. split; [auto|]. split; [auto using StronglySorted_sorted_by|].
    pose proof (NoDup_incl_length ND (fun w => proj1 (I w))) as Len.
    destruct (words (trie terms)) as [|w l] eqn:Ew.
    - destruct terms as [|t ts]; [reflexivity|]. exfalso. apply (I t). now left.
    - cbn [tl next_value]. cbn [length] in Len |- *.
      replace (length terms) with (S (length l) + (length terms - S (length l))) at 1 by lia.
      rewrite emitted_more, last_cons. reflexivity.
  Qed.

  Lemma trie_equal a b : trie a = trie b <-> forall w, In w a <-> In w b.
  Proof.
    split.
    - intros E w. rewrite <- !tin_trie, E. reflexivity.
    - intros H. apply tree_ext; auto using trie_sorted, trie_useful. intros w. apply Bool.eq_iff_eq_true.
      rewrite !tin_trie. apply H.
  Qed.

  Lemma read_equal d e terms terms' : readable h d terms -> readable h e terms' -> 2 * weight terms + 6 <= fuel ->
    exists r, dawg_eq fuel h d e = Ok r /\
      (r = true <-> (forall w, In w terms <-> In w terms') /\
         (N.of_nat (length terms) mod 2 ^ 64 = N.of_nat (length terms') mod 2 ^ 64)%N).
  Proof.
    intros (C & _ & U) (C' & _ & U') Hf.
    destruct (unf_read _ _ _ U) as (n1 & R1 & G1 & N1). destruct (unf_read _ _ _ U') as (n2 & R2 & G2 & N2).
    pose proof (tsize_trie terms). pose proof (height_tsize (trie terms)).
    destruct (node_eq_ok fuel h n1 n2 _ _ N1 N2) as (r & E & I); [lia|].
    unfold dawg_eq. destruct (N.eqb_spec (d_size d) (d_size e)) as [Es|Es].
    - exists r. rewrite R1, R2. cbn [negb rbind]. split; [exact E|]. rewrite I, trie_equal.
      rewrite C, C' in Es. split; [intros X; split; [exact X|exact Es]|tauto].
    - exists false. cbn [negb]. split; [reflexivity|]. split; [discriminate|]. intros [_ X]. exfalso. apply Es.
      rewrite C, C'. exact X.
  Qed.

  Lemma read_hash d terms : readable h d terms -> 2 * weight terms + 6 <= fuel ->
    exists code, dawg_hash fuel h d = Ok code /\ hash_alone terms code.
  Proof.
    intros (C & A & U) Hf.
    assert (G : forall k h' d', unf h' (d_root d') (trie terms) -> d_size d' = (N.of_nat (length terms) mod W)%N ->
      height (trie terms) <= k ->
      dawg_hash k h' d' = Ok (murmur_key (thash (trie terms)) (murmur_key (N.of_nat (length terms) mod W) DEADBEEF))).
    { intros k h' d' U' C' Hk. destruct (unf_read _ _ _ U') as (n & R & _ & N). unfold dawg_hash.
      rewrite R. cbn [rbind]. rewrite (node_hash_ok k h' n _ N Hk). cbn [rbind]. now rewrite C'. }
    pose proof (tsize_trie terms). pose proof (height_tsize (trie terms)).
    eexists. split; [apply G; auto; lia|].
    intros alloc h0 h' b HA R. apply sorted_dawg_built in R; [|exact HA]. destruct R as (_ & Bu & _).
    exists (height (trie terms)). intros k Hk. apply G; [apply Bu|apply Bu|exact Hk].
  Qed.

  Lemma found_length alg terms q n : length (found alg terms q n) <= length terms.
  Proof.
    apply NoDup_incl_length; [eapply StronglySorted_NoDup; eauto using shortlex_irrefl, found_sorted|].
    intros w I. now apply found_In in I.
  Qed.
  Lemma read_search alg d terms q n : readable h d terms -> 2 * weight terms + 6 <= fuel -> within_limits terms q n ->
    exists out, query_all as_candidate fuel h (new_transducer alg (d_root d)) q n = Ok out /\
      sorted_by shortlex_lt (map fst out) /\
      forall w k, In (w, k) out <-> In w terms /\ edit_distance alg q w (N.to_nat k) /\ (k <= n)%N.
  Proof.
    intros (_ & _ & U) Hf L. exists (scored alg terms q n). split; [|split].
    - rewrite query_all_fuel with (terms := terms); auto.
      + rewrite <- (map_id (scored alg terms q n)) at 2. f_equal. apply map_ext. intros [w k]. reflexivity.
      + pose proof (tsize_trie terms). pose proof (found_length alg terms q n). lia.
    - rewrite scored_fst. apply StronglySorted_sorted_by, found_sorted.
    - intros w k. apply scored_In.
  Qed.
End Reading.

(** What from_protobuf makes of a message, in a memory of its own. *)
Lemma region_restore al fuel h d terms m : allocator al -> readable h d terms -> describes h d m ->
  exists u b, alone al (s_from_protobuf m) [] = Ok (u, b) /\ slot_ok fuel u (Ready terms) (Some b).
Proof.
  intros HA (C & A & U) D. destruct (restored_copy al h d _ m [] HA U D) as (f & u & E & Cp).
  exists u, (Builder (Dawg (f (d_root d)) (d_size d)) [] None). rewrite from_protobuf_alone. split; [exact E|].
  split; [exact C|]. split; [exact A|]. cbn [b_dawg d_root b_work].
  split; [eapply copy_unf; eauto using reach_refl|]. right. split; [reflexivity|].
  intros a Na. rewrite (cp_rest _ _ _ _ _ Cp a); [reflexivity|]. intros p Rp ->. apply Na.
  apply (copy_reach _ _ _ _ _ _ Cp U). eauto.
Qed.

(** ** A thread's dictionaries in its memory *)
Record place := Place { pl_mem : heap; pl_stage : stage; pl_slot : option builder }.
Arguments Place : clear implicits.

Definition cost_one (c : command) : nat :=
  match c with Build ts => 2 * weight ts | Add _ t => 2 * S (length t) | _ => 0 end.
Definition cost (cs : list command) : nat := fold_right (fun c m => cost_one c + m) 0 cs.

(** [top]: what the shared dictionaries need. *)
Record holds (fuel top : nat) (hs v : heap) (l : list place) (budget : nat) : Prop := Holds {
  h_fits : fits [] v (map pl_mem l);
  h_sep : sep v hs;
  h_fuel : top + budget + 6 <= fuel;
  h_slots : Forall (fun e => slot_ok fuel (pl_mem e) (pl_stage e) (pl_slot e) /\ swt (pl_stage e) + budget + 6 <= fuel) l }.

Lemma holds_less fuel top hs v l m n : holds fuel top hs v l m -> n <= m -> holds fuel top hs v l n.
Proof.
  intros [F S B G] L. constructor; auto; [lia|]. eapply Forall_impl; [|exact G]. cbn. intros e [H1 H2]. split; [exact H1|lia].
Qed.

Lemma on_slot {A} alloc hs (p : action A) (Q : heap -> A -> Prop) v l1 u l2 : allocator alloc ->
  fits [] v (l1 ++ u :: l2) -> sep v hs ->
  (forall al, allocator al -> exists u' x, alone al p u = Ok (u', x) /\ Q u' x) ->
  exists v' u' x, split alloc hs p v = Ok (v', x) /\ Q u' x /\ fits [] v' (l1 ++ u' :: l2) /\ sep v' hs.
Proof.
  intros HA F Sp H. pose proof (nth_error_here l1 l2 u) as Mi. pose proof (f_in F Mi) as Su.
  destruct (H _ (@seen_from_allocator alloc hs u v)) as (u' & x & E & HQ).
  destruct (@part_of A alloc hs u v p HA Su Sp [] u' x) as (ev & -> & E' & T); [intros a []|exact E|].
  exists (ev ++ v), (ev ++ u), x. split; [exact E'|]. split; [exact HQ|]. split; [|eauto using touches_sep].
  apply fits_events; [exact F|]. intros a I. split; [reflexivity|]. intros j m' Nj Hj.
  destruct (T a I) as [G|[G _]].
  - destruct (hget u a) as [n|] eqn:Eu; [|congruence]. exact (f_own F (not_eq_sym Nj) Mi Hj Eu).
  - exact (sub_none (f_in F Hj) G).
Qed.

(** An operation on one dictionary of the thread. *)
Lemma on_place {A} alloc hs (p : action A) fuel top v l1 e l2 budget less s' (Q : A -> option builder -> Prop) :
  allocator alloc -> holds fuel top hs v (l1 ++ e :: l2) budget -> less <= budget -> swt s' + less <= swt (pl_stage e) + budget ->
  (forall al, allocator al -> exists u' x o, alone al p (pl_mem e) = Ok (u', x) /\ slot_ok fuel u' s' o /\ Q x o) ->
  exists v' u' x o, split alloc hs p v = Ok (v', x) /\ Q x o /\ holds fuel top hs v' (l1 ++ Place u' s' o :: l2) less.
Proof.
  intros HA [F Sp B G] Lb Ls H. rewrite map_app in F. cbn [map] in F.
  destruct (@on_slot A alloc hs p (fun u' x => exists o, slot_ok fuel u' s' o /\ Q x o) v _ _ _ HA F Sp) as
    (v' & u' & x & E & (o & Sl & HQ) & F' & Sp').
  { intros al Hal. destruct (H al Hal) as (u' & x & o & E & Sl & HQ). eauto 6. }
  exists v', u', x, o. split; [exact E|]. split; [exact HQ|].
  apply Forall_app in G. destruct G as [G1 G2]. inversion G2 as [|? ? [_ Ge] G2']; subst.
  constructor; [rewrite map_app; exact F'|exact Sp'|lia|].
  apply Forall_app. split.
  - eapply Forall_impl; [|exact G1]. cbn. intros e' [X Y]. split; [exact X|lia].
  - constructor; [cbn [pl_mem pl_stage pl_slot]; split; [exact Sl|lia]|].
    eapply Forall_impl; [|exact G2']. cbn. intros e' [X Y]. split; [exact X|lia].
Qed.

Lemma holds_more fuel top hs v l budget : holds fuel top hs v l budget -> holds fuel top hs v (l ++ [Place [] Gone None]) budget.
Proof.
  intros [F Sp B G]. constructor; [rewrite map_app; now apply fits_more|exact Sp|exact B|].
  apply Forall_app. split; [exact G|]. constructor; [|constructor]. cbn [pl_mem pl_stage pl_slot slot_ok swt].
  split; [reflexivity|lia].
Qed.

Lemma put_map {A} (f : place -> A) l1 e l2 e' :
  firstn (length l1) (map f (l1 ++ e :: l2)) ++ f e' :: skipn (S (length l1)) (map f (l1 ++ e :: l2)) =
  map f (l1 ++ e' :: l2).
Proof.
  rewrite !map_app. cbn [map]. rewrite <- (map_length f l1). rewrite firstn_app, Nat.sub_diag, firstn_all. cbn [firstn].
  rewrite app_nil_r. f_equal. f_equal. rewrite skipn_app, skipn_all2 by lia.
  replace (S (length (map f l1)) - length (map f l1)) with 1 by lia. reflexivity.
Qed.

Lemma slot_put_map u s o l1 e l2 :
  slot_put (length l1) o (map pl_slot (l1 ++ e :: l2)) = map pl_slot (l1 ++ Place u s o :: l2).
Proof. exact (put_map pl_slot l1 e l2 (Place u s o)). Qed.
Lemma stage_put_map u s o l1 e l2 :
  map pl_stage (l1 ++ Place u s o :: l2) = stage_put (length l1) s (map pl_stage (l1 ++ e :: l2)).
Proof. symmetry. exact (put_map pl_stage l1 e l2 (Place u s o)). Qed.

Lemma shared_nth hs shared dawgs : Forall2 (fun terms d => readable hs d terms) shared dawgs ->
  forall j terms, nth_error shared j = Some terms -> exists d, nth_error dawgs j = Some d /\ readable hs d terms.
Proof.
  induction 1 as [|t d ts ds H _ IH]; intros [|j] terms E; try discriminate; cbn in *.
  - injection E as <-. eauto.
  - now apply IH.
Qed.

Section Session.
  Variables (alloc : heap -> ptr) (fuel top : nat) (hs : heap) (shared : list (list str)) (dawgs : list dawg).
  Hypothesis HA : allocator alloc.
  Hypothesis HS : Forall2 (fun terms d => readable hs d terms) shared dawgs.
  Hypothesis HF : Forall (fun terms => 2 * weight terms <= top) shared.

  (** A dictionary that may be read. *)
  Lemma may_read v l budget d terms : holds fuel top hs v l budget -> terms_of shared (map pl_stage l) d = Some terms ->
    exists x, dawg_of dawgs (map pl_slot l) d = Some x /\ readable (v ++ hs) x terms /\ 2 * weight terms + budget + 6 <= fuel.
  Proof.
    intros H E. destruct d as [i|j]; cbn [terms_of dawg_of] in *.
    - rewrite nth_error_map in E. destruct (nth_error l i) as [e|] eqn:Ei; [|discriminate]. cbn in E.
      destruct (pl_stage e) as [|ts|] eqn:Es; try discriminate. injection E as <-.
      pose proof (h_slots H) as G. rewrite Forall_forall in G. destruct (G e (nth_error_In _ _ Ei)) as [Sl Bu].
      rewrite Es in Sl, Bu. unfold slot_get. rewrite nth_error_map, Ei. cbn [option_map].
      destruct (pl_slot e) as [b|]; [|destruct Sl]. destruct Sl as (C & A & U & _). exists (b_dawg b). split; [reflexivity|].
      split; [|cbn [swt] in Bu; lia]. split; [exact C|]. split; [exact A|]. eapply unf_sub; [|exact U].
      intros a n G'. apply hget_some_app. refine (f_in (h_fits H) (i := i) _ G'). now rewrite nth_error_map, Ei.
    - destruct (shared_nth HS E) as (x & Ex & C & A & U). exists x. split; [exact Ex|]. split.
      + split; [exact C|]. split; [exact A|]. eapply unf_sub; [|exact U]. apply sep_sub. apply H.
      + rewrite Forall_forall in HF. pose proof (HF _ (nth_error_In _ _ E)). pose proof (h_fuel H). lia.
  Qed.

  Lemma slot_at l i s : nth_error (map pl_stage l) i = Some s ->
    exists l1 e l2, l = l1 ++ e :: l2 /\ i = length l1 /\ pl_stage e = s /\ slot_get i (map pl_slot l) = pl_slot e.
  Proof.
    intros H. rewrite nth_error_map in H. destruct (nth_error l i) as [e|] eqn:Ei; [|discriminate]. injection H as <-.
    destruct (nth_error_split _ _ Ei) as (l1 & l2 & -> & <-). exists l1, e, l2. repeat (split; [reflexivity|]).
    unfold slot_get. rewrite nth_error_map, nth_error_here. reflexivity.
  Qed.

  Lemma command_ok c ss ss' a : does shared c ss ss' a -> forall v l budget, map pl_stage l = ss ->
    holds fuel top hs v l (cost_one c + budget) ->
    exists v' l' a', split alloc hs (s_command fuel dawgs c (map pl_slot l)) v = Ok (v', (map pl_slot l', a')) /\
      map pl_stage l' = ss' /\ does shared c ss ss' a' /\ holds fuel top hs v' l' budget.
  Proof.
    intros D. destruct D as [terms ss As|terms ss As|ss|i term ss kept Hi L|i term ss kept Hi L|i ss kept Hi|i ss s Hi
      |d term ss terms b Hd Lt Hb|d ss terms out Hd Lt Ho|d e ss terms terms' b Hd He Hb|d ss terms code Hd Hc|alg d q n ss terms out Hd Lm So Ho|d ss terms Hd];
      intros v l budget El H; subst ss; cbn [cost_one] in H; cbn [s_command].
    - (* sorted_dawg *)
      rewrite split_andthen. apply holds_more in H.
      destruct (@on_place _ alloc hs (s_sorted_dawg fuel terms) fuel top v l (Place [] Gone None) [] _ budget (Ready terms)
        (fun x o => x = o /\ o <> None) HA H) as (v' & u' & x & o & E & (-> & No) & H'); [lia|cbn [swt pl_stage]; lia| |].
      { intros al Hal. destruct (@region_build al fuel Hal terms) as (u & o & E & [(_ & b & -> & Sl)|(N & _)]);
          [pose proof (h_fuel H); lia| |contradiction].
        exists u, (Some b), (Some b). split; [exact E|]. split; [exact Sl|]. split; [reflexivity|discriminate]. }
      rewrite E. cbn [rbind split]. exists v', (l ++ [Place u' (Ready terms) o]), (Answered true).
      split; [|split; [|split; [|exact H']]].
      + rewrite map_app. cbn [map pl_slot]. destruct o; [reflexivity|contradiction].
      + rewrite map_app. reflexivity.
      + now constructor.
    - rewrite split_andthen. apply holds_more in H.
      destruct (@on_place _ alloc hs (s_sorted_dawg fuel terms) fuel top v l (Place [] Gone None) [] _ budget Gone
        (fun x o => x = o /\ o = None) HA H) as (v' & u' & x & o & E & (-> & ->) & H'); [lia|cbn [swt pl_stage]; lia| |].
      { intros al Hal. destruct (@region_build al fuel Hal terms) as (u & o & E & [(N & _)|(_ & -> & Sl)]);
          [pose proof (h_fuel H); lia|contradiction|].
        exists u, None, None. auto. }
      rewrite E. cbn [rbind split]. exists v', (l ++ [Place u' Gone None]), (Answered false).
      split; [|split; [|split; [|exact H']]].
      + rewrite map_app. reflexivity.
      + rewrite map_app. reflexivity.
      + now constructor.
    - (* new SortedDawg *)
      rewrite split_andthen. apply holds_more in H.
      destruct (@on_place _ alloc hs s_new_sorted_dawg fuel top v l (Place [] Gone None) [] _ budget (Growing [])
        (fun x o => o = Some (init x)) HA H) as (v' & u' & x & o & E & -> & H'); [lia|cbn [swt pl_stage weight]; lia| |].
      { intros al Hal. destruct (@region_begin al fuel Hal) as (u & b & E & Sl); [pose proof (h_fuel H); lia|]. eauto 6. }
      rewrite E. cbn [rbind split]. exists v', (l ++ [Place u' (Growing []) (Some (init x))]), Nothing.
      split; [|split; [|split; [|exact H']]].
      + rewrite map_app. reflexivity.
      + rewrite map_app. reflexivity.
      + constructor.
    - (* add *)
      destruct (slot_at Hi) as (l1 & e & l2 & -> & -> & Es & Eo). unfold with_builder. rewrite Eo.
      pose proof (h_slots H) as G. apply Forall_app in G. destruct G as [_ G]. apply Forall_inv in G. destruct G as [Sl Bu].
      rewrite Es in Sl, Bu. cbn [swt] in Bu. destruct (pl_slot e) as [b|] eqn:Eb; [|destruct Sl]. rewrite split_andthen.
      destruct (@on_place _ alloc hs (s_add fuel b term) fuel top v l1 e l2 _ budget (Growing (kept ++ [term]))
        (fun x o => exists b', x = (true, b') /\ o = Some b') HA H) as (v' & u' & x & o & E & (b' & -> & ->) & H').
      { lia. } { rewrite Es. cbn [swt]. rewrite weight_app. cbn [weight]. lia. }
      { intros al Hal. destruct (@region_add al fuel Hal _ _ _ term Sl) as (u' & b' & E & Sl'); [lia|exact L|].
        exists u', (true, b'), (Some b'). eauto. }
      rewrite E. cbn [rbind split fst snd].
      exists v', (l1 ++ Place u' (Growing (kept ++ [term])) (Some b') :: l2), (Answered true).
      split; [|split; [|split; [|exact H']]].
      + rewrite (@slot_put_map u' (Growing (kept ++ [term])) (Some b')). reflexivity.
      + apply stage_put_map.
      + econstructor; eauto.
    - destruct (slot_at Hi) as (l1 & e & l2 & -> & -> & Es & Eo). unfold with_builder. rewrite Eo.
      pose proof (h_slots H) as G. apply Forall_app in G. destruct G as [_ G]. apply Forall_inv in G. destruct G as [Sl Bu].
      rewrite Es in Sl, Bu. cbn [swt] in Bu. destruct (pl_slot e) as [b|] eqn:Eb; [|destruct Sl]. rewrite split_andthen.
      destruct (@on_place _ alloc hs (s_add fuel b term) fuel top v l1 e l2 _ budget (Growing kept)
        (fun x o => x = (false, b) /\ o = Some b) HA H) as (v' & u' & x & o & E & (-> & ->) & H').
      { lia. } { rewrite Es. cbn [swt]. lia. }
      { intros al Hal. pose proof (@region_reject al fuel _ _ _ term Sl L) as E. exists (pl_mem e), (false, b), (Some b). auto. }
      rewrite E. cbn [rbind split fst snd].
      exists v', (l1 ++ Place u' (Growing kept) (Some b) :: l2), (Answered false).
      split; [|split; [|split; [|exact H']]].
      + rewrite (@slot_put_map u' (Growing kept) (Some b)). reflexivity.
      + rewrite !map_app. cbn [map pl_stage]. now rewrite Es.
      + econstructor; eauto.
    - (* finish *)
      destruct (slot_at Hi) as (l1 & e & l2 & -> & -> & Es & Eo). unfold with_builder. rewrite Eo.
      pose proof (h_slots H) as G. apply Forall_app in G. destruct G as [_ G]. apply Forall_inv in G. destruct G as [Sl Bu].
      rewrite Es in Sl, Bu. cbn [swt] in Bu. destruct (pl_slot e) as [b|] eqn:Eb; [|destruct Sl]. rewrite split_andthen.
      destruct (@on_place _ alloc hs (s_finish fuel b) fuel top v l1 e l2 _ budget (Ready kept)
        (fun x o => o = Some x) HA H) as (v' & u' & b' & o & E & -> & H').
      { lia. } { rewrite Es. cbn [swt]. lia. }
      { intros al Hal. destruct (@region_finish al fuel _ _ _ Sl) as (u' & b' & E & Sl'). eauto 6. }
      rewrite E. cbn [rbind split]. exists v', (l1 ++ Place u' (Ready kept) (Some b') :: l2), Nothing.
      split; [|split; [|split; [|exact H']]].
      + rewrite (@slot_put_map u' (Ready kept) (Some b')). reflexivity.
      + apply stage_put_map.
      + econstructor; eauto.
    - (* delete *)
      destruct (slot_at Hi) as (l1 & e & l2 & -> & -> & Es & Eo). rewrite Eo.
      pose proof (h_slots H) as G. apply Forall_app in G. destruct G as [_ G]. apply Forall_inv in G. destruct G as [Sl Bu].
      destruct (pl_slot e) as [b|] eqn:Eb.
      + rewrite split_andthen.
        destruct (@on_place _ alloc hs (s_destroy fuel b) fuel top v l1 e l2 _ budget Gone
          (fun _ o => o = None) HA H) as (v' & u' & x & o & E & -> & H').
        { lia. } { cbn [swt]. lia. }
        { intros al Hal. destruct (@region_destroy al fuel _ _ _ Sl) as (u' & E & Sl'); [lia|]. eauto 6. }
        rewrite E. cbn [rbind split]. exists v', (l1 ++ Place u' Gone None :: l2), Nothing.
        split; [|split; [|split; [|exact H']]].
        * rewrite (@slot_put_map u' Gone None). reflexivity.
        * apply stage_put_map.
        * econstructor; eauto.
      + cbn [split]. exists v, (l1 ++ e :: l2), Nothing. split; [reflexivity|]. split; [|split; [econstructor; eauto|exact H]].
        unfold stage_put. assert (X : pl_stage e = Gone) by (destruct (pl_stage e); [destruct Sl..|reflexivity]).
        rewrite <- X. symmetry. apply put_map.
    - (* contains *)
      destruct (may_read H Hd) as (x & Ex & R & _). unfold with_dawg. rewrite Ex, split_andthen.
      destruct (@read_contains (v ++ hs) x terms term R Lt) as (r & Er & Hr).
      rewrite (@looks_split _ alloc hs _ (ol_contains x term) v (v ++ hs) r) by (rewrite contains_alone, Er; reflexivity).
      cbn [rbind split]. exists v, l, (Answered r). split; [reflexivity|]. split; [reflexivity|].
      split; [econstructor; eauto|exact H].
    - (* iteration *)
      destruct (may_read H Hd) as (x & Ex & R & Bu). unfold with_dawg. rewrite Ex, split_andthen.
      destruct (@read_list fuel (v ++ hs) x terms R ltac:(lia) Lt) as (r & Er & Hr).
      rewrite (@looks_split _ alloc hs _ (ol_iterate fuel x) v (v ++ hs) r) by (rewrite iterate_alone, Er; reflexivity).
      cbn [rbind split]. exists v, l, (Listed r). split; [reflexivity|]. split; [reflexivity|].
      split; [econstructor; eauto|exact H].
    - (* == *)
      destruct (may_read H Hd) as (x & Ex & R & Bu). destruct (may_read H He) as (y & Ey & R' & _).
      unfold with_dawg. rewrite Ex, Ey, split_andthen.
      destruct (@read_equal fuel (v ++ hs) x y terms terms' R R' ltac:(lia)) as (r & Er & Hr).
      rewrite (@looks_split _ alloc hs _ (ol_dawg_eq fuel x y) v (v ++ hs) r) by (rewrite dawg_eq_alone, Er; reflexivity).
      cbn [rbind split]. exists v, l, (Answered r). split; [reflexivity|]. split; [reflexivity|].
      split; [econstructor; eauto|exact H].
    - (* hash *)
      destruct (may_read H Hd) as (x & Ex & R & Bu). unfold with_dawg. rewrite Ex, split_andthen.
      destruct (@read_hash fuel (v ++ hs) x terms R ltac:(lia)) as (r & Er & Hr).
      rewrite (@looks_split _ alloc hs _ (ol_dawg_hash fuel x) v (v ++ hs) r) by (rewrite dawg_hash_alone, Er; reflexivity).
      cbn [rbind split]. exists v, l, (Hashed r). split; [reflexivity|]. split; [reflexivity|].
      split; [econstructor; eauto|exact H].
    - (* query *)
      destruct (may_read H Hd) as (x & Ex & R & Bu). unfold with_dawg. rewrite Ex, split_andthen.
      destruct (@read_search fuel (v ++ hs) alg x terms q n R ltac:(lia) Lm) as (r & Er & Sr & Hr).
      rewrite (@looks_split _ alloc hs _ (ol_query_all as_candidate fuel _ q n) v (v ++ hs) r)
        by (rewrite query_all_alone, Er; reflexivity).
      cbn [rbind split]. exists v, l, (Found r). split; [reflexivity|]. split; [reflexivity|].
      split; [econstructor; eauto|exact H].
    - (* copy *)
      destruct (may_read H Hd) as (x & Ex & R & Bu). unfold with_dawg. rewrite Ex, split_andthen.
      destruct (to_protobuf_ok fuel (v ++ hs) x (trie terms)) as (m & Em & De).
      { apply R. } { pose proof (tsize_trie terms). pose proof (height_tsize (trie terms)). lia. }
      rewrite (@looks_split _ alloc hs _ (ol_to_protobuf fuel x) v (v ++ hs) m) by (rewrite to_protobuf_alone, Em; reflexivity).
      cbn [rbind]. rewrite split_andthen. apply holds_more in H.
      destruct H as [F Sp B G]. rewrite map_app in F. cbn [map pl_mem] in F.
      destruct (@on_slot _ alloc hs (s_from_protobuf m) (fun u' b => slot_ok fuel u' (Ready terms) (Some b)) v (map pl_mem l) [] [] HA F Sp)
        as (v' & u' & b & E & Sl & F' & Sp').
      { intros al Hal. eapply region_restore; eauto. }
      rewrite E. cbn [rbind split]. exists v', (l ++ [Place u' (Ready terms) (Some b)]), Nothing.
      rewrite !map_app. split; [reflexivity|]. split; [reflexivity|]. split; [now constructor|].
      constructor; [rewrite map_app; exact F'|exact Sp'|exact B|].
      apply Forall_app in G. destruct G as [G _]. apply Forall_app. split; [exact G|].
      constructor; [|constructor]. cbn [pl_mem pl_stage pl_slot swt]. split; [exact Sl|lia].
  Qed.

  Lemma run_ok cs ss ss' out : all_do shared cs ss ss' out -> forall v l, map pl_stage l = ss ->
    holds fuel top hs v l (cost cs) ->
    exists v' l' out', split alloc hs (s_run fuel dawgs cs (map pl_slot l)) v = Ok (v', (map pl_slot l', out')) /\
      map pl_stage l' = ss' /\ all_do shared cs ss ss' out' /\ holds fuel top hs v' l' 0.
  Proof.
    induction 1 as [ss|c cs ss ss1 ss2 a out D _ IH]; intros v l El H; cbn [s_run cost fold_right] in *.
    - exists v, l, []. cbn [split]. split; [reflexivity|]. split; [exact El|]. split; [constructor|exact H].
    - destruct (command_ok D El H) as (v1 & l1 & a1 & E1 & El1 & D1 & H1). rewrite split_andthen, E1. cbn [rbind].
      destruct (IH v1 l1 El1 H1) as (v2 & l2 & out2 & E2 & El2 & D2 & H2). rewrite split_andthen, E2. cbn [rbind split].
      exists v2, l2, (a1 :: out2). split; [reflexivity|]. split; [exact El2|]. split; [econstructor; eauto|exact H2].
  Qed.

  (** From the start; at the end only what belongs to the dictionaries is left. *)
  Lemma session_ok cs ss out : all_do shared cs [] ss out -> top + cost cs + 6 <= fuel ->
    exists v l out', split alloc hs (s_run fuel dawgs cs []) [] = Ok (v, (map pl_slot l, out')) /\
      map pl_stage l = ss /\ all_do shared cs [] ss out' /\ holds fuel top hs v l 0.
  Proof.
    intros D Hf. apply (run_ok D (v := []) (l := []) eq_refl). constructor; [|intros a []|exact Hf|constructor].
    constructor; try (intros; discriminate); intros [|i]; intros; discriminate.
  Qed.

  Lemma holds_gone v l budget : holds fuel top hs v l budget -> (forall s, In s (map pl_stage l) -> s = Gone) ->
    forall a, hget v a = None.
  Proof.
    intros H G a. destruct (hget v a) as [n|] eqn:E; [|reflexivity]. exfalso.
    destruct (f_all (h_fits H) E) as [X|(i & m & Hi & X)]; [discriminate|]. rewrite nth_error_map in Hi.
    destruct (nth_error l i) as [e|] eqn:Ei; [|discriminate]. injection Hi as <-.
    pose proof (h_slots H) as F. rewrite Forall_forall in F. destruct (F e (nth_error_In _ _ Ei)) as [Sl _].
    rewrite (G (pl_stage e)) in Sl by (apply in_map; eapply nth_error_In; eauto).
    destruct (pl_slot e); [destruct Sl|]. cbn in Sl. rewrite Sl in X. discriminate.
  Qed.
End Session.

(** ** The programs and the functions *)
Section Commands.
  Variable alloc : heap -> ptr.

  Lemma command_alone fuel dawgs c ss : forall h,
    alone alloc (s_command fuel dawgs c ss) h = run_command fuel alloc dawgs c h ss.
  Proof.
    intros h. destruct c as [terms| |i term|i|i|d term|d|d e|d|alg d q n|d]; cbn [s_command run_command].
    - rewrite alone_andthen, sorted_dawg_alone. destruct (sorted_dawg fuel alloc h terms) as [[h1 r]| |]; reflexivity.
    - rewrite alone_andthen, new_sorted_dawg_alone. destruct (new_sorted_dawg alloc h) as [h1 b]. reflexivity.
    - unfold with_builder, on_builder. destruct (slot_get i ss) as [b|]; [|reflexivity].
      rewrite alone_andthen, add_alone. destruct (add fuel alloc h b term) as [[[r h1] b1]| |]; reflexivity.
    - unfold with_builder, on_builder. destruct (slot_get i ss) as [b|]; [|reflexivity].
      rewrite alone_andthen, finish_alone. destruct (finish fuel h b) as [[h1 b1]| |]; reflexivity.
    - destruct (slot_get i ss) as [b|]; [|reflexivity].
      rewrite alone_andthen, destroy_alone. destruct (destroy fuel h b) as [h1| |]; reflexivity.
    - unfold with_dawg, on_dawg. destruct (dawg_of dawgs ss d) as [x|]; [|reflexivity].
      rewrite alone_andthen, contains_alone. destruct (contains h x term); reflexivity.
    - unfold with_dawg, on_dawg. destruct (dawg_of dawgs ss d) as [x|]; [|reflexivity].
      rewrite alone_andthen, iterate_alone. destruct (iterate fuel h x); reflexivity.
    - unfold with_dawg, on_dawg. destruct (dawg_of dawgs ss d) as [x|]; [|reflexivity].
      destruct (dawg_of dawgs ss e) as [y|]; [|reflexivity].
      rewrite alone_andthen, dawg_eq_alone. destruct (dawg_eq fuel h x y); reflexivity.
    - unfold with_dawg, on_dawg. destruct (dawg_of dawgs ss d) as [x|]; [|reflexivity].
      rewrite alone_andthen, dawg_hash_alone. destruct (dawg_hash fuel h x); reflexivity.
    - unfold with_dawg, on_dawg. destruct (dawg_of dawgs ss d) as [x|]; [|reflexivity].
      rewrite alone_andthen, query_all_alone. destruct (query_all as_candidate fuel h _ q n); reflexivity.
    - unfold with_dawg, on_dawg. destruct (dawg_of dawgs ss d) as [x|]; [|reflexivity].
      rewrite alone_andthen, to_protobuf_alone. destruct (to_protobuf fuel h x) as [m| |]; cbn [rbind]; try reflexivity.
      rewrite alone_andthen, from_protobuf_alone. destruct (from_protobuf alloc h m) as [[h1 b]| |]; reflexivity.
  Qed.

  Lemma run_alone fuel dawgs : forall cs ss h,
    alone alloc (s_run fuel dawgs cs ss) h = run_commands fuel alloc dawgs cs h ss.
  Proof.
    induction cs as [|c cs IH]; intros ss h; [reflexivity|]. cbn [s_run run_commands].
    rewrite alone_andthen, command_alone. destruct (run_command fuel alloc dawgs c h ss) as [[h1 [ss1 a]]| |]; cbn [rbind]; try reflexivity.
    rewrite alone_andthen, IH. destruct (run_commands fuel alloc dawgs cs h1 ss1) as [[h2 [ss2 out]]| |]; reflexivity.
  Qed.
End Commands.
