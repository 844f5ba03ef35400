(** * Property C99: how often building a dictionary compares nodes. *)
From Coq Require Import Sorting.Permutation.
From Verif Require Import Base Spec ModelTransducer ModelHash ModelDawg ModelUseCost ModelBuildCost ModelMatchCost SpecDawg SpecQuery SpecCost SpecMatchCost
  TreeProofs HeapProofs BuildProofs BuildProofs2 DawgProofs DestroyProofs QueryFacts PropsDawg PropsQuery BuildCostProofs PropsBuildCost PropsBuildHold
  MatchCostProofs StalkProofs.
Local Open Scope nat_scope.

Lemma node_at_sub : forall h w p t n, unf h p t -> node_at h p w = Some n -> has t w /\ nunf h n (sub t w).
Proof.
  intros h. induction w as [|c w IH]; intros p t n U E; cbn [node_at] in E; destruct (unf_inv _ _ _ U) as (n0 & _ & G & N0); rewrite G in E.
  - injection E as <-. split; [exact Logic.I|exact N0].
  - destruct N0 as (_ & Us & _). pose proof (unfs_get _ _ _ c Us) as X. cbn [has sub]. unfold tget.
    destruct (edge_get (nedges n0) c) as [q|]; [|discriminate]. destruct X as (tq & Gt & Uq). rewrite Gt. now apply IH with q.
Qed.

Lemma node_at_has : forall h w p t, unf h p t -> has t w -> exists n, node_at h p w = Some n.
Proof.
  intros h. induction w as [|c w IH]; intros p t U H; cbn [node_at]; destruct (unf_inv _ _ _ U) as (n0 & _ & G & N0); rewrite G; [eauto|].
  destruct N0 as (_ & Us & _). pose proof (unfs_get _ _ _ c Us) as X. cbn [has] in H.
  destruct (edge_get (nedges n0) c) as [q|]; [|rewrite X in H; destruct H]. destruct X as (tq & Gt & Uq). rewrite Gt in H. now apply IH with tq.
Qed.

Lemma hash_code : forall h n t code, nunf h n t -> (runs_to (fun fuel => node_hash fuel h n) code <-> code = thash t).
Proof.
  intros h n t code N. assert (R : runs_to (fun fuel => node_hash fuel h n) (thash t)) by (exists (height t); intros; now apply node_hash_ok).
  split; [intros R'; exact (runs_to_det _ _ _ _ R' R)|intros ->; exact R].
Qed.

Lemma representatives_count : forall terms reps R, representatives terms reps -> NoDup R ->
  (forall r, In r R <-> exists w, w <> [] /\ has (trie terms) w /\ sub (trie terms) w = r) -> length R = length reps.
Proof.
  intros terms reps R (ND & Pre & Inj & All) NR HR.
  rewrite <- (map_length (sub (trie terms)) reps). apply Permutation_length, NoDup_Permutation; [exact NR| |].
  - clear All HR. induction reps as [|r reps IH]; cbn; constructor; inversion ND; subst.
    + intros J. apply in_map_iff in J. destruct J as (s & E & J). assert (r = s); [|congruence].
      apply Inj; [now left|now right|]. apply sub_same. now symmetry.
    + apply IH; auto; intros; [apply Pre; now right|apply Inj; auto; now right].
  - intros x. rewrite HR, in_map_iff. split.
    + intros (w & Nw & Hw & <-). apply has_trie in Hw; [|exact Nw]. destruct Hw as (u & J). destruct (All w u Nw J) as (r & Jr & S).
      exists r. split; [|exact Jr]. symmetry. apply sub_same. exact S.
    + intros (r & <- & J). destruct (Pre r J) as (Nr & Ex). exists r. split; [exact Nr|]. split; [|reflexivity]. apply has_trie; auto.
Qed.

(** ** C99: if no two prefixes with different endings lead to nodes with the same
    hash code, nodes are compared once for every character of every prefix of the
    terms, except, for one prefix of every group of non-empty prefixes with the
    same endings, once for every prefix that begins with it: a node is compared
    with the one that replaces it, and every prefix below is compared, too; a node
    that is kept is compared with none.

    With collisions there can be more comparisons, but no more than [2 * g] times
    the characters of the prefixes, if there are [g] groups. *)
Theorem C99_build : forall alloc h0 ts, allocator alloc ->
  exists flags kept h b calls, greedy [] ts flags kept /\
    runs_to (fun fuel => finished fuel alloc h0 ts) (flags, h, b) /\
    runs_to (fun fuel => e_finished fuel alloc h0 ts) (flags, h, b, calls) /\
    (exists prefixes reps, lists_prefixes kept prefixes /\ representatives kept reps) /\
    forall prefixes reps, lists_prefixes kept prefixes -> representatives kept reps ->
      let kept_nodes := list_sum (map (fun r => length (filter (begins r) prefixes)) reps) in
      total_length prefixes <= calls + kept_nodes /\
      calls <= 2 * length reps * total_length prefixes /\
      (no_collisions h (d_root (b_dawg b)) kept -> calls + kept_nodes = total_length prefixes).
Proof.
  intros alloc h0 ts A. destruct (e_finished_ok alloc h0 ts A) as (flags & kept & h & b & calls & G & R & C & U & Rs & ND & HR & Lo & Up & Ex).
  exists flags, kept, h, b, calls. split; [exact G|]. split; [exact R|]. split; [exact C|]. split.
  - destruct (prefixes_listed kept) as (ps & P & _). destruct (representatives_exist kept Rs ND HR) as (reps & X). eauto.
  - intros ps reps P X. cbv zeta. destruct (prefixes_weight kept ps P) as (_ & ->). rewrite <- (representatives_sizes kept ps reps Rs P X ND HR).
    rewrite <- (representatives_count kept reps Rs X ND HR). split; [exact Lo|]. split; [exact Up|]. intros Nc. apply Ex.
    intros r s Jr Js E. apply HR in Jr. apply HR in Js. destruct Jr as (u & Nu & Hu & <-), Js as (v & Nv & Hv & <-).
    destruct (node_at_has _ _ _ _ U Hu) as (nu & Eu), (node_at_has _ _ _ _ U Hv) as (nv & Ev).
    destruct (node_at_sub _ _ _ _ _ U Eu) as (_ & Su), (node_at_sub _ _ _ _ _ U Ev) as (_ & Sv).
    apply sub_same. apply (Nc u v nu nv (thash (sub (trie kept) u))); auto; [now apply (hash_code _ _ _ _ Su)|now apply (hash_code _ _ _ _ Sv)].
Qed.
Print Assumptions C99_build.

(** Then there are, together with the calls of the hash function (C83), exactly
    two calls for every character of every prefix. *)
Theorem C99_together : forall alloc h0 ts, allocator alloc ->
  exists flags kept h b hashed compared, greedy [] ts flags kept /\
    runs_to (fun fuel => c_finished fuel alloc h0 ts) (flags, h, b, hashed) /\
    runs_to (fun fuel => e_finished fuel alloc h0 ts) (flags, h, b, compared) /\
    (no_collisions h (d_root (b_dawg b)) kept -> forall prefixes, lists_prefixes kept prefixes -> hashed + compared = 2 * total_length prefixes).
Proof.
  intros alloc h0 ts A.
  destruct (c_finished_ok alloc h0 ts A) as (f1 & k1 & h1 & b1 & c1 & G1 & R1 & C1 & _ & Rs1 & ND1 & HR1 & E1).
  destruct (C99_build alloc h0 ts A) as (flags & kept & h & b & calls & G & R & C & (ps0 & reps & _ & X) & All).
  pose proof (runs_to_det _ _ _ _ R1 R) as E. injection E as -> -> ->.
  assert (k1 = kept) as -> by (clear -G G1; revert kept G; induction G1; intros kept' G; inversion G; subst; auto; f_equal; auto).
  exists flags, kept, h, b, c1, calls. split; [exact G|]. split; [exact C1|]. split; [exact C|]. intros Nc ps P.
  destruct (All ps reps P X) as (_ & _ & Ex). specialize (Ex Nc). rewrite E1.
  rewrite (representatives_sizes kept ps reps Rs1 P X ND1 HR1). destruct (prefixes_weight kept ps P) as (_ & W). rewrite <- W. lia.
Qed.
Print Assumptions C99_together.

(** Codes do collide.  "Building takes no more comparisons than calls of the hash
    function" is false: for a term of [n] equal characters the number of these is
    at most quadratic in [n] (C83), and the number of comparisons is cubic. *)
Theorem C99_no_more_than_hashed_refuted : forall alloc h0 c k n, allocator alloc -> 768 * k <= n ->
  exists flags h b calls, runs_to (fun fuel => e_finished fuel alloc h0 [repeat c n]) (flags, h, b, calls) /\
    2 * ((256 * k) * (256 * k) * k) <= calls.
Proof.
  intros alloc h0 c k n A L. destruct (e_finished_ok alloc h0 [repeat c n] A) as (flags & kept & h & b & calls & G & R & C & U & Rs & ND & HR & _ & _ & _ & Pr).
  exists flags, h, b, calls. split; [exact C|].
  assert (kept = [repeat c n]) as ->.
  { inversion G as [|? ? ? ? ? N G'|? ? ? ? ? Lt G']; subst; inversion G'; subst; [reflexivity|]. inversion Lt. }
  rewrite (pairs_perm clash (fun x => exists i, x = stalk c i)) with (L' := map (stalk c) (seq 0 n)) in Pr.
  - pose proof (stalk_clashes c k n L). lia.
  - intros x y (i & ->) (j & ->). rewrite !clash_stalk, N.eqb_sym, Nat.min_comm. reflexivity.
  - exact (stalk_trees c n Rs ND HR).
  - intros x J. apply (Permutation_in _ (stalk_trees c n Rs ND HR)) in J. apply in_map_iff in J. destruct J as (i & <- & _). eauto.
Qed.
Print Assumptions C99_no_more_than_hashed_refuted.

(** Forty times the same letter: 1640 calls of the hash function, and 4268
    comparisons. *)
Example C99_case_one : exists flags h b,
  c_finished 50 bump [] [repeat "a"%char 40] = Ok (flags, h, b, 1640) /\ e_finished 50 bump [] [repeat "a"%char 40] = Ok (flags, h, b, 4268).
Proof. eexists _, _, _. split; vm_compute; reflexivity. Qed.

(** {a, ab, cab, cb}: 11 characters in the prefixes, and 9 prefixes below those
    that are kept, each counted once for each; so two comparisons.  There are no
    collisions. *)
Example C99_case : exists flags h b, runs_to (fun fuel => e_finished fuel bump [] some_terms) (flags, h, b, 2) /\
  no_collisions h (d_root (b_dawg b)) some_terms /\
  match e_finished 20 bump [] some_terms with Ok (_, _, _, calls) => calls = 2 | _ => False end.
Proof.
  destruct (C99_build bump [] some_terms bump_allocator) as (flags & kept & h & b & calls & G & _ & C & _ & All).
  destruct (e_finished_ok bump [] some_terms bump_allocator) as (f2 & k2 & h2 & b2 & c2 & G2 & _ & C2 & U & _).
  pose proof (runs_to_det _ _ _ _ C C2) as E. injection E as <- <- <- <-.
  assert (some_sorted : sorted_by lex_le ([] :: some_terms)) by (constructor; [right; constructor|exact some_terms_ascending]).
  assert (kept = some_terms) as -> by (apply (greedy_det _ _ _ _ G _ _ (greedy_sorted _ _ some_sorted))).
  assert (k2 = some_terms) as -> by (apply (greedy_det _ _ _ _ G2 _ _ (greedy_sorted _ _ some_sorted))).
  assert (Nc : no_collisions h (d_root (b_dawg b)) some_terms).
  {
    intros u v nu nv code Nu Nv Eu Ev Cu Cv.
    destruct (node_at_sub _ _ _ _ _ U Eu) as (Hu & Su), (node_at_sub _ _ _ _ _ U Ev) as (Hv & Sv).
    apply (hash_code _ _ _ _ Su) in Cu. apply (hash_code _ _ _ _ Sv) in Cv. apply sub_same.
    assert (P : forall w, w <> [] -> has (trie some_terms) w -> In w [lit "a"; lit "ab"; lit "c"; lit "ca"; lit "cab"; lit "cb"]).
    { intros w Nw Hw. apply has_trie in Hw; [|exact Nw]. destruct Hw as (x & J).
      destruct w as [|c0 [|c1 [|c2 [|c3 w]]]]; [congruence| | | |]; cbn in J;
        repeat destruct J as [J|J]; try (exfalso; exact J); try discriminate J; injection J; intros; subst; try discriminate; cbn; auto 10. }
    pose proof (P u Nu Hu) as Ju. pose proof (P v Nv Hv) as Jv. rewrite Cu in Cv. clear -Ju Jv Cv. cbn [In] in Ju, Jv.
    repeat destruct Ju as [<-|Ju]; try (exfalso; exact Ju); repeat destruct Jv as [<-|Jv]; try (exfalso; exact Jv);
      first [vm_compute; reflexivity|exfalso; vm_compute in Cv; discriminate Cv]. }
  exists flags, h, b. destruct C83_exact_case as (ps & P & X & T' & M). destruct (All ps _ P X) as (_ & _ & Ex). specialize (Ex Nc).
  rewrite M, T' in Ex. cbn in Ex. assert (calls = 2) as -> by lia. split; [exact C|]. split; [exact Nc|]. vm_compute. reflexivity.
Qed.

(** All strings of length three over two letters: 34 characters in the prefixes, 11
    prefixes below the three nodes that are kept. *)
Example C99_binary_case : exists flags h b, e_finished 20 bump [] (binary 3) = Ok (flags, h, b, 23).
Proof. eexists _, _, _. vm_compute. reflexivity. Qed.
