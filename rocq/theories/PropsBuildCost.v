(** * Property C83: how often building a dictionary hashes nodes. *)
From Coq Require Import Sorting.Permutation.
From Verif Require Import Base Spec ModelTransducer ModelDawg ModelBuildCost SpecDawg SpecQuery SpecCost TreeProofs HeapProofs BuildProofs BuildProofs2
  DawgProofs DestroyProofs QueryFacts PropsDawg PropsQuery BuildCostProofs.
Local Open Scope nat_scope.

(** ** C83: the hash function of nodes is called at least once and at most twice
    for every character of every prefix of the terms, each prefix taken once.
    Rejected terms cost nothing. *)
Theorem C83_build : forall alloc h0 ts, allocator alloc ->
  exists flags kept h b calls, greedy [] ts flags kept /\
    runs_to (fun fuel => finished fuel alloc h0 ts) (flags, h, b) /\
    runs_to (fun fuel => c_finished fuel alloc h0 ts) (flags, h, b, calls) /\
    forall prefixes, lists_prefixes kept prefixes -> total_length prefixes <= calls <= 2 * total_length prefixes.
Proof.
  intros alloc h0 ts A. destruct (c_finished_ok alloc h0 ts A) as (flags & kept & h & b & calls & G & R & C & L & _).
  exists flags, kept, h, b, calls. split; [exact G|]. split; [exact R|]. split; [exact C|]. intros ps P.
  destruct (prefixes_weight kept ps P) as (_ & ->). exact L.
Qed.
Print Assumptions C83_build.

(** The exact number: once for every character of every prefix, and for every set
    of endings once for every prefix that begins with one prefix that has these
    endings.  So when a node is looked up, all prefixes below it are hashed, and
    again when it turns out to be new and is entered. *)
Theorem C83_exact : forall alloc h0 ts, allocator alloc ->
  exists flags kept h b calls, greedy [] ts flags kept /\
    runs_to (fun fuel => c_finished fuel alloc h0 ts) (flags, h, b, calls) /\
    (exists prefixes reps, lists_prefixes kept prefixes /\ representatives kept reps) /\
    forall prefixes reps, lists_prefixes kept prefixes -> representatives kept reps ->
      calls = total_length prefixes + list_sum (map (fun r => length (filter (begins r) prefixes)) reps).
Proof.
  intros alloc h0 ts A. destruct (c_finished_ok alloc h0 ts A) as (flags & kept & h & b & calls & G & R & C & L & Rs & ND & HR & Ec).
  exists flags, kept, h, b, calls. split; [exact G|]. split; [exact C|]. split.
  - destruct (prefixes_listed kept) as (ps & P & _). destruct (representatives_exist kept Rs ND HR) as (reps & X). eauto.
  - intros ps reps P X. destruct (prefixes_weight kept ps P) as (_ & ->). now rewrite <- (representatives_sizes kept ps reps Rs P X ND HR).
Qed.
Print Assumptions C83_exact.

(** The endings after "a" are "" and "b", those after "ab", "cab" and "cb" only "",
    those after "c" are "ab" and "b", and after "ca" there is only "b": 11 and
    2 + 1 + 4 + 2 calls. *)
Example C83_exact_case : exists prefixes, lists_prefixes some_terms prefixes /\
  representatives some_terms [lit "a"; lit "ab"; lit "c"; lit "ca"] /\ total_length prefixes = 11 /\
  map (fun r => length (filter (begins r) prefixes)) [lit "a"; lit "ab"; lit "c"; lit "ca"] = [2; 1; 4; 2].
Proof.
  exists [[]; lit "a"; lit "ab"; lit "c"; lit "ca"; lit "cab"; lit "cb"].
  assert (Ends : forall w u, In (w ++ u) some_terms -> w = [] \/ In (w, u)
    [(lit "a", []); (lit "a", lit "b"); (lit "ab", []); (lit "c", lit "ab"); (lit "ca", lit "b"); (lit "cab", []); (lit "c", lit "b"); (lit "cb", [])]).
  { intros w u J. destruct w as [|c0 [|c1 [|c2 [|c3 w]]]]; [now left| | | |]; right; cbn in J;
      repeat destruct J as [J|J]; try (exfalso; exact J); try discriminate J; injection J; intros; subst; try discriminate; cbn; auto 10. }
  split; [|split; [|split; reflexivity]].
  - split; [repeat constructor; cbn; intuition discriminate|]. intros w. split.
    + intros J. cbn in J. destruct J as [<-|J]; [now left|right].
      repeat destruct J as [<-|J]; try (exfalso; exact J); [exists []|exists []|exists (lit "ab")|exists (lit "b")|exists []|exists []]; cbn; auto 10.
    + intros [->|(u & J)]; [now left|]. apply Ends in J. destruct J as [->|J]; [now left|]. cbn in J.
      repeat destruct J as [J|J]; try (exfalso; exact J); injection J as <- _; cbn; auto 10.
  - split; [repeat constructor; cbn; intuition discriminate|]. split; [|split].
    + intros r J. cbn in J. repeat destruct J as [<-|J]; try (exfalso; exact J); (split; [discriminate|]); [exists []|exists []|exists (lit "b")|exists (lit "b")]; cbn; auto 10.
    + intros r s Jr Js E. cbn in Jr, Js.
      repeat destruct Jr as [<-|Jr]; try (exfalso; exact Jr); repeat destruct Js as [<-|Js]; try (exfalso; exact Js); try reflexivity; exfalso;
        first [pose proof (proj1 (E (lit "b")) ltac:(cbn; auto 10)) as X; cbn in X; intuition discriminate
              |pose proof (proj2 (E (lit "b")) ltac:(cbn; auto 10)) as X; cbn in X; intuition discriminate
              |pose proof (proj1 (E []) ltac:(cbn; auto 10)) as X; cbn in X; intuition discriminate
              |pose proof (proj2 (E []) ltac:(cbn; auto 10)) as X; cbn in X; intuition discriminate
              |pose proof (proj1 (E (lit "ab")) ltac:(cbn; auto 10)) as X; cbn in X; intuition discriminate
              |pose proof (proj2 (E (lit "ab")) ltac:(cbn; auto 10)) as X; cbn in X; intuition discriminate].
    + assert (Nil : forall w x, In w [lit "ab"; lit "cab"; lit "cb"] -> In (w ++ x) some_terms -> x = []).
      { intros w x Jw J. apply Ends in J. destruct J as [->|J]; [cbn in Jw; intuition discriminate|]. cbn in Jw, J.
        repeat destruct J as [J|J]; try (exfalso; exact J); injection J; intros; subst; auto; exfalso; intuition discriminate. }
      assert (Eq : forall w, In w [lit "ab"; lit "cab"; lit "cb"] -> same_endings some_terms w (lit "ab")).
      { intros w Jw x. split; intros J; [rewrite (Nil _ _ Jw J); cbn; auto|].
        rewrite (Nil (lit "ab") x (or_introl eq_refl) J). cbn in Jw. repeat destruct Jw as [<-|Jw]; try (exfalso; exact Jw); cbn; auto 10. }
      intros w u Nw J. apply Ends in J. destruct J as [->|J]; [congruence|]. cbn in J.
      repeat destruct J as [J|J]; try (exfalso; exact J); injection J as <- _;
        first [solve [exists (lit "ab"); split; [cbn; auto 10|apply Eq; cbn; auto 10]]
              |solve [match goal with |- exists r, _ /\ same_endings _ ?w r => exists w end; split; [cbn; auto 10|intros x; reflexivity]]].
Qed.

(** So there are at most [2 * L] calls for every character that is added, if no
    term is longer than [L]. *)
Theorem C83_bound : forall alloc h0 ts longest, allocator alloc -> (forall t, In t ts -> length t <= longest) ->
  exists flags h b calls, runs_to (fun fuel => c_finished fuel alloc h0 ts) (flags, h, b, calls) /\
    calls <= 2 * longest * total_length ts.
Proof.
  intros alloc h0 ts L A Sh. destruct (C83_build alloc h0 ts A) as (flags & kept & h & b & calls & G & _ & C & Le).
  exists flags, h, b, calls. split; [exact C|].
  destruct (prefixes_listed kept) as (ps & P & Lp). specialize (Le ps P).
  assert (K : total_length kept <= total_length ts /\ forall t, In t kept -> In t ts).
  { clear -G. induction G as [|prev t ts flags kept _ _ [IH1 IH2]|prev t ts flags kept _ _ [IH1 IH2]].
    - split; auto.
    - change (length t + total_length kept <= length t + total_length ts /\ forall u, In u (t :: kept) -> In u (t :: ts)).
      split; [lia|]. intros u [<-|I]; [now left|right; auto].
    - change (total_length kept <= length t + total_length ts /\ forall u, In u kept -> In u (t :: ts)).
      split; [lia|]. intros u I. right. auto. }
  destruct K as (K1 & K2).
  assert (Sz : tsize (trie kept) <= 1 + total_length kept).
  { clear. unfold trie. assert (X : forall ts t, tsorted t -> tsize (trie_from t ts) <= tsize t + total_length ts).
    { induction ts as [|w ts IH]; intros t So; [cbn; lia|].
      change (total_length (w :: ts)) with (length w + total_length ts). change (trie_from t (w :: ts)) with (trie_from (tadd t w) ts).
      specialize (IH (tadd t w) (tadd_sorted _ _ So)). pose proof (tsize_tadd w t So). lia. }
    pose proof (X kept leaf tsorted_leaf). rewrite tsize_leaf in H. exact H. }
  assert (W : total_length ps <= L * (length ps - 1)).
  { destruct P as [ND I].
    assert (Short : forall w, In w ps -> length w <= L).
    { intros w J. apply I in J. destruct J as [->|(u & J)]; [cbn; lia|]. apply K2, Sh in J. rewrite app_length in J. lia. }
    assert (Em : In [] ps) by (apply I; now left). clear -Short ND Em.
    apply in_split in Em. destruct Em as (a & b & ->).
    assert (X : forall l, (forall w, In w l -> length w <= L) -> total_length l <= L * length l).
    { induction l as [|w l IH]; intros H; [cbn; lia|]. change (total_length (w :: l)) with (length w + total_length l). cbn [length].
      specialize (IH (fun v J => H v (or_intror J))). pose proof (H w (or_introl eq_refl)). lia. }
    assert (Y : total_length (a ++ [] :: b) = total_length (a ++ b)).
    { unfold total_length. rewrite !map_app, !list_sum_app. reflexivity. }
    rewrite Y, app_length. cbn [length]. replace (length a + S (length b) - 1) with (length (a ++ b)) by (rewrite app_length; lia).
    apply X. intros w J. apply Short. apply in_app_iff in J. apply in_app_iff. destruct J; [now left|right; now right]. }
  assert (length ps - 1 <= total_length ts) by lia. nia.
Qed.
Print Assumptions C83_bound.

(** "Building takes a number of calls proportional to the input" is false: a
    single term needs a number quadratic in its length. *)
Lemma one_term_prefixes : forall t : str, lists_prefixes [t] (map (fun i => firstn i t) (seq 0 (S (length t)))).
Proof.
  intros t. split.
  - assert (X : forall l, NoDup l -> (forall i, In i l -> i <= length t) -> NoDup (map (fun i => firstn i t) l)).
    { induction l as [|i l IH]; intros N H; cbn; constructor; inversion N; subst.
      - intros J. apply in_map_iff in J. destruct J as (j & E & J). apply (f_equal (@length _)) in E.
        rewrite !firstn_length_le in E; [subst j; auto| |]; apply H; cbn; auto.
      - apply IH; auto. intros j J. apply H. now right. }
    apply X; [apply seq_NoDup|]. intros i I. apply in_seq in I. lia.
  - intros w. rewrite in_map_iff. split.
    + intros (i & <- & I). right. exists (skipn i t). left. symmetry. apply firstn_skipn.
    + intros [->|(u & [E|[]])]; [exists 0; split; [reflexivity|apply in_seq; lia]|].
      exists (length w). rewrite E. split; [now rewrite firstn_app, Nat.sub_diag, firstn_all, app_nil_r|].
      apply in_seq. rewrite app_length. lia.
Qed.

Theorem C83_linear_refuted : forall alloc h0 t, allocator alloc ->
  exists flags h b calls, runs_to (fun fuel => c_finished fuel alloc h0 [t]) (flags, h, b, calls) /\
    length t * (length t + 1) <= 2 * calls.
Proof.
  intros alloc h0 t A. destruct (C83_build alloc h0 [t] A) as (flags & kept & h & b & calls & G & _ & C & Le).
  exists flags, h, b, calls. split; [exact C|].
  assert (kept = [t]) as ->.
  { inversion G as [|? ? ? ? ? N G'|? ? ? ? ? Lt G']; subst; inversion G'; subst; [reflexivity|]. inversion Lt. }
  specialize (Le _ (one_term_prefixes t)).
  assert (S : 2 * total_length (map (fun i => firstn i t) (seq 0 (S (length t)))) = length t * (length t + 1)).
  { assert (X : forall n, n <= length t -> 2 * total_length (map (fun i => firstn i t) (seq 0 (S n))) = n * (n + 1)).
    { induction n as [|n IH]; intros H; [reflexivity|]. rewrite seq_S, map_app. unfold total_length in *. rewrite map_app, list_sum_app.
      rewrite Nat.mul_add_distr_l, IH by lia. cbn [map list_sum Nat.add]. unfold list_sum. cbn [fold_right]. rewrite firstn_length_le by lia. lia. }
    apply X. lia. }
  lia.
Qed.
Print Assumptions C83_linear_refuted.

(** ** Hashing a dictionary calls the hash function of nodes once for every prefix
    of its terms, however few nodes there are. *)
Theorem C83_dictionary_hash : forall terms h d prefixes, dictionary terms h d -> lists_prefixes terms prefixes ->
  exists code, runs_to (fun fuel => dawg_hash fuel h d) code /\
    runs_to (fun fuel => c_dawg_hash fuel h d) (code, length prefixes).
Proof.
  intros terms h d ps D P. destruct (dictionary_unf _ _ _ D) as (U & _). destruct (unf_read _ _ _ U) as (n & R & _ & Nu).
  destruct (prefixes_weight terms ps P) as (-> & _). eexists. split; exists (height (trie terms)); intros fuel Hf.
  - unfold dawg_hash. rewrite R. cbn [rbind]. rewrite (node_hash_ok fuel h n _ Nu Hf). reflexivity.
  - unfold c_dawg_hash. rewrite R. cbn [rbind]. rewrite (c_node_hash_ok fuel h n _ Nu Hf). reflexivity.
Qed.
Print Assumptions C83_dictionary_hash.

(** "a", "ab", "cab", "cb": the prefixes have 0 + 1 + 2 + 1 + 2 + 3 + 2 = 11
    characters; there are 20 calls, and 7 to hash the dictionary. *)
Example C83_case : exists flags h b,
  c_finished 20 bump [] some_terms = Ok (flags, h, b, 20) /\ c_dawg_hash 20 h (b_dawg b) = Ok (match dawg_hash 20 h (b_dawg b) with Ok c => c | _ => 0%N end, 7) /\
  total_length [[]; lit "a"; lit "ab"; lit "c"; lit "ca"; lit "cab"; lit "cb"] = 11.
Proof. eexists _, _, _. split; [vm_compute; reflexivity|]. split; vm_compute; reflexivity. Qed.

(** A term of ten characters takes 110 calls, rejected terms none. *)
Example C83_case_one : exists flags h b, c_finished 20 bump [] [lit "abcdefghij"; lit "aaa"; lit ""] = Ok (flags, h, b, 110) /\
  flags = [true; false; false].
Proof. eexists _, _, _. split; vm_compute; reflexivity. Qed.
