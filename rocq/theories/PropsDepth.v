(** * PropsDepth: how deep the recursive functions nest (C74).

    The fuel of these functions is the number of calls that may be active at the
    same time; [OOF] is what a program with a smaller stack meets. *)
From Coq Require Import Sorting.Permutation.
From Verif Require Import Base Spec ModelDistance AlignProofs DistProofs ModelTransducer ModelDawg ModelSerial ModelQuery SpecDawg SpecQuery
  PropsDawg PropsQuery TreeProofs HeapProofs BuildProofs BuildProofs2 DawgProofs QueryFacts
  ModelState ModelMemory ModelIterator SpecState PointerProofs DepthProofs.
Local Open Scope nat_scope.

(** ** between(v, w): |v| + |w| calls are enough, whatever the memo holds... *)
Theorem C74_distance : forall alg v w m depth, 1 <= depth -> length v + length w <= depth ->
  exists d m', run (between_fuel depth alg v w) m = Ok (d, m') /\ run (between alg v w) m = Ok (d, m').
Proof.
  intros alg v w m depth D L. destruct (between_depth alg depth (S (length v + length w)) v w m) as [E N]; try lia.
  unfold between. rewrite <- E. destruct (run (between_fuel depth alg v w) m) as [[d m']| |] eqn:R; [eauto| |congruence].
  exfalso. clear -R. revert R. generalize (between_fuel depth alg v w). intros p. revert m. induction p; intros m R; cbn in R; try discriminate; eauto.
Qed.
Print Assumptions C74_distance.

(** ... and necessary: for strings without a common character, of any lengths. *)
Theorem C74_distance_needed : forall alg a b i j depth, a <> b -> 1 <= i -> 1 <= j -> depth < i + j ->
  run (between_fuel depth alg (repeat a i) (repeat b j)) [] = OOF.
Proof.
  intros alg a b i j depth N I J D. destruct i as [|i]; [lia|]. apply deep; auto using memo_ok_nil. intros x y. reflexivity.
Qed.
Print Assumptions C74_distance_needed.

Example C74_distance_case :
  run (between_fuel 5 STANDARD (lit "aaa") (lit "bb")) [] <> OOF /\
  run (between_fuel 4 STANDARD (lit "aaa") (lit "bb")) [] = OOF.
Proof.
  split; [|apply (C74_distance_needed STANDARD "a"%char "b"%char 3 2); auto; discriminate].
  destruct (C74_distance STANDARD (lit "aaa") (lit "bb") [] 5) as (d & m & -> & _); [lia|cbn; lia|discriminate].
Qed.

(** ** The hash of a dictionary: one call more than the longest term is long. *)
Theorem C74_hash : forall terms h d depth, dictionary terms h d -> 1 <= depth ->
  ((forall t, In t terms -> length t < depth) -> exists code, dawg_hash depth h d = Ok code) /\
  ((exists t, In t terms /\ depth <= length t) -> dawg_hash depth h d = OOF).
Proof.
  intros terms h d depth D L. destruct (dictionary_unf _ _ _ D) as (U & _ & _). destruct (unf_read _ _ _ U) as (n & R & _ & Nu).
  unfold dawg_hash. rewrite R. cbn [rbind]. split.
  - intros S. rewrite (node_hash_ok depth h n (trie terms) Nu); [cbn; eauto|].
    destruct depth as [|k]; [lia|]. apply trie_height. intros t I. specialize (S t I). lia.
  - intros (t & I & S). rewrite (hash_deep depth h n (trie terms) Nu); [reflexivity|].
    assert (length t < height (trie terms)) by (apply height_tin, tin_trie; auto). lia.
Qed.
Print Assumptions C74_hash.

(** ** Comparing two dictionaries with the same terms: the same. *)
Theorem C74_equality : forall terms h d1 d2 depth, dictionary terms h d1 -> dictionary terms h d2 -> 1 <= depth ->
  ((forall t, In t terms -> length t < depth) -> dawg_eq depth h d1 d2 = Ok true) /\
  ((exists t, In t terms /\ depth <= length t) -> dawg_eq depth h d1 d2 = OOF).
Proof.
  intros terms h d1 d2 depth D1 D2 L. destruct (dictionary_unf _ _ _ D1) as (U1 & _ & S1), (dictionary_unf _ _ _ D2) as (U2 & _ & S2).
  destruct (unf_read _ _ _ U1) as (n1 & R1 & _ & N1), (unf_read _ _ _ U2) as (n2 & R2 & _ & N2).
  unfold dawg_eq. rewrite S1, S2, N.eqb_refl, R1, R2. cbn [negb rbind]. split.
  - intros S. destruct (node_eq_ok depth h n1 n2 (trie terms) (trie terms) N1 N2) as (r & -> & E).
    + destruct depth as [|k]; [lia|]. apply trie_height. intros t I. specialize (S t I). lia.
    + f_equal. now apply E.
  - intros (t & I & S). apply (eq_deep depth h n1 n2 (trie terms) N1 N2).
    assert (length t < height (trie terms)) by (apply height_tin, tin_trie; auto). lia.
Qed.
Print Assumptions C74_equality.

(** ** Building a dictionary (add calls the hash function): not more. *)
Theorem C74_build : forall alloc h0 ts depth, allocator alloc -> 1 <= depth -> (forall t, In t ts -> length t < depth) ->
  exists r, finished depth alloc h0 ts = Ok r /\ runs_to (fun fuel => finished fuel alloc h0 ts) r.
Proof.
  intros alloc h0 ts depth A L Sh. destruct (new_init alloc h0) as (h1 & b1 & E1).
  destruct (new_sorted_dawg_ok alloc depth h0 A L h1 b1 E1) as (BI & P1 & S1).
  destruct (adds_ok alloc A ts depth h0 h1 (init b1) leaf _ _ _ BI Sh) as
    (flags & kept & h2 & b2 & w2 & frs2 & t2 & G & E2 & BI2 & P2 & R2 & S2).
  { rewrite S1. unfold W; lia. }
  destruct (finish_ok depth h0 h2 b2 _ w2 frs2 t2 BI2) as (h3 & w3 & E3 & I3 & U3).
  assert (X : forall fuel, depth <= fuel -> finished fuel alloc h0 ts = Ok (flags, h3, Builder (b_dawg b2) (b_prev b2) (Some w3))).
  { intros fuel Hf. unfold finished, under_construction. rewrite E1, E2 by auto. cbn. rewrite E3 by auto. auto. }
  eexists. split; [apply X; lia|]. exists depth. exact X.
Qed.
Print Assumptions C74_build.

(** The depth that a single term needs while it is built. *)
Example C74_build_case : exists r,
  finished 4 bump [] [lit "aaa"] = Ok r /\ finished 2 bump [] [lit "aaa"] = OOF /\
  forall h b flags, r = (flags, h, b) -> dawg_hash 3 h (b_dawg b) = OOF.
Proof. eexists. split; [vm_compute; reflexivity|]. split; [vm_compute; reflexivity|]. intros h b flags E. injection E as <- <- <-. vm_compute. reflexivity. Qed.

(** ** The text of a Prefix (dictionary iterators) and of an Intersection
    (queries): one call more than its length. *)
Theorem C74_text : forall m p w, runs_to (fun depth => pcell_str depth m p) w ->
  forall depth, (length w < depth -> pcell_str depth m p = Ok w) /\ (depth <= length w -> pcell_str depth m p = OOF).
Proof. intros m p w (en & R). exact (prefix_depth m en p w (R en (le_n _))). Qed.
Print Assumptions C74_text.

Theorem C74_query_text : forall m p w, runs_to (fun depth => intersection_str depth m p) w ->
  forall depth, (length w < depth -> intersection_str depth m p = Ok w) /\ (depth <= length w -> intersection_str depth m p = OOF).
Proof. intros m p w (en & R). exact (intersection_depth m en p w (R en (le_n _))). Qed.
Print Assumptions C74_query_text.

Example C74_text_case : exists m, pcell_str 3 m 3%N = Ok (lit "ab") /\ pcell_str 2 m 3%N = OOF.
Proof.
  pose (m := mset (mset (mset ([] : mem pcell) 1%N (PCell 9%N null Ascii.zero)) 2%N (PCell 9%N 1%N "a"%char)) 3%N (PCell 9%N 2%N "b"%char)).
  exists m. split; vm_compute; reflexivity.
Qed.

(** ** State::sort: the depth is logarithmic ([depth] calls below the first). *)
Theorem C74_sort : forall cmp l depth,
  (length l <= 2 ^ depth -> exists s, merge_sort depth cmp l = Ok s /\ ModelTransducer.sort cmp l = Ok s) /\
  (2 ^ depth < length l -> merge_sort depth cmp l = OOF).
Proof.
  intros cmp l depth. destruct (sort_depth cmp depth l) as [[(s & E & _) B]|[E B]]; split; intros; auto; try lia.
  exists s. split; auto. unfold ModelTransducer.sort. destruct (Nat.le_ge_cases depth (length l)) as [L|L].
  - eapply sort_more; eauto.
  - destruct (sort_depth cmp (length l) l) as [[(s' & E' & _) B']|[_ B']].
    + rewrite E'. rewrite (sort_more cmp _ _ _ _ L E') in E. congruence.
    + pose proof (Nat.pow_gt_lin_r 2 (length l)). lia.
Qed.
Print Assumptions C74_sort.

Example C74_sort_case : merge_sort 2 (fun _ _ => 0%Z) (repeat (Pos 0 0 false) 4) <> OOF /\
  merge_sort 2 (fun _ _ => 0%Z) (repeat (Pos 0 0 false) 5) = OOF.
Proof. split; vm_compute; [discriminate|reflexivity]. Qed.

(** ** ~State: one call for every position, and the call for the null pointer. *)
Theorem C74_destroy_state : forall m base head l depth, has_state m base head l ->
  (length l < depth -> exists m', destroy_state depth m head = Ok m' /\ consists_of m' base []) /\
  (depth <= length l -> destroy_state depth m head = OOF).
Proof.
  intros m base head l depth H. split; intros L.
  - now apply (world_delete H).
  - destruct H as [H _]. eapply delete_deep; [|exact L]. apply H. now left.
Qed.
Print Assumptions C74_destroy_state.

Example C74_destroy_case :
  let m := mset (mset ([] : positions) 2%N (Cell (Pos 1 0 false) null)) 1%N (Cell (Pos 0 0 false) 2%N) in
  destroy_state 2 m 1%N = OOF /\ exists m', destroy_state 3 m 1%N = Ok m' /\ mget m' 1%N = None /\ mget m' 2%N = None.
Proof. split; [|eexists; split; [|split]]; vm_compute; reflexivity. Qed.

(** Hash and comparison of a dictionary whose longest term has three characters. *)
Example C74_hash_case : dictionary some_terms example_heap example_dawg /\ list_max (map (@length char) some_terms) = 3 /\
  dawg_hash 3 example_heap example_dawg = OOF /\ (exists code, dawg_hash 4 example_heap example_dawg = Ok code) /\
  dawg_eq 3 example_heap example_dawg example_dawg = OOF /\ dawg_eq 4 example_heap example_dawg example_dawg = Ok true.
Proof. split; [exact example_dictionary|]. repeat split; try (eexists; vm_compute; reflexivity); vm_compute; reflexivity. Qed.
