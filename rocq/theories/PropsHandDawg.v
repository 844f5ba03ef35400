(** * Property C101: dictionaries made of nodes that a caller made by hand. *)
From Coq Require Import Sorting.Sorted.
From Verif Require Import Base Spec ModelTransducer ModelDawg ModelQuery ModelHand ModelHandMap SpecDawg SpecQuery SpecSnapshot SpecLimits SpecHand SpecHandMap
  AlignProofs TransProofs StateProofs TreeProofs HeapProofs IterProofs DawgProofs BuildProofs2 QueryProofs QueryFacts SnapshotProofs HandProofs HandMapProofs HandDawgProofs PropsDawg PropsHand.
From Verif Require PropsForeign.
Local Open Scope nat_scope.

Lemma performed : forall alloc h0 calls hist h ps, allocator alloc -> plainly 0 calls hist -> orderly hist -> perform_any_all alloc h0 [] calls = Ok (h, ps) -> stands h0 hist h ps.
Proof. intros alloc h0 calls hist h ps A P O E. destruct (any_ok alloc h0 calls hist A P O) as (h' & ps' & E' & St). congruence. Qed.

Lemma made_unf : forall h0 hist h ps x p, orderly hist -> stands h0 hist h ps -> exists_still hist x -> nth_error ps x = Some p -> ~ goes_round hist x ->
  exists t, unf h p t /\ height t <= length (made hist) /\
    (forall w, present t w = true <-> destination hist x w <> None) /\ (forall w, tin t w = true <-> term_of hist x w).
Proof. intros h0 hist h ps x p O St E Ep N. apply (hand_unf h0 hist h ps O St _ x p E Ep). intros w y D. now apply (walks_short hist O x w y). Qed.

(** The destructor of a dictionary with the root [x] frees the nodes that one can get
    to from [x], also those that are shared, and nothing else. *)
Theorem C101_destroy : forall alloc h0 calls hist h ps x p size, allocator alloc -> plainly 0 calls hist -> orderly hist -> perform_any_all alloc h0 [] calls = Ok (h, ps) ->
  exists_still hist x -> nth_error ps x = Some p -> ~ goes_round hist x ->
  exists h', runs_to (fun fuel => destroy_dawg fuel h (Dawg p size)) h' /\
    (forall w y q, destination hist x w = Some y -> nth_error ps y = Some q -> hget h' q = None) /\
    (forall q, (forall w y, destination hist x w = Some y -> nth_error ps y <> Some q) -> hget h' q = hget h q).
Proof.
  intros alloc h0 calls hist h ps x p size A P O E Ex Ep N. pose proof (performed _ _ _ _ _ _ A P O E) as St.
  destruct (made_unf h0 hist h ps x p O St Ex Ep N) as (t & U & _). destruct (destroy_dawg_all h (Dawg p size) t U) as (h' & R & D1 & D2). cbn [d_root] in *.
  exists h'. split; [exists (tsize t + 2); exact R|]. split.
  - intros w y q D Q. apply D1. apply (hand_reach h0 hist h ps O St x p q Ex Ep). eauto.
  - intros q Nq. apply D2. intros Rq. apply (hand_reach h0 hist h ps O St x p q Ex Ep) in Rq. destruct Rq as (w & y & D & Q). exact (Nq w y D Q).
Qed.

(** If one can go round, the destructor never ends, nor does comparing the dictionary
    with itself, nor computing its hash code. *)
Theorem C101_round_refuted : forall alloc h0 calls hist h ps x p size fuel, allocator alloc -> plainly 0 calls hist -> orderly hist -> perform_any_all alloc h0 [] calls = Ok (h, ps) ->
  exists_still hist x -> nth_error ps x = Some p -> goes_round hist x ->
  destroy_dawg fuel h (Dawg p size) = OOF /\ dawg_eq fuel h (Dawg p size) (Dawg p size) = OOF /\ dawg_hash fuel h (Dawg p size) = OOF.
Proof.
  intros alloc h0 calls hist h ps x p size fuel A P O E Ex Ep Ro. pose proof (performed _ _ _ _ _ _ A P O E) as St.
  destruct (st_node _ _ _ _ St x Ex) as (p' & n & E1 & E2 & _ & E4 & _). assert (p' = p) by congruence. subst p'. split; [|split].
  - unfold destroy_dawg, all_nodes. cbn [d_root]. rewrite (round_loop h0 hist h ps O St); [reflexivity| |].
    + intros q [<-|[]]. eauto.
    + exists p, x. split; [now left|auto].
  - unfold dawg_eq. cbn [d_root d_size]. rewrite N.eqb_refl. cbn [negb]. rewrite (read_ok _ _ _ E2 E4). cbn [rbind]. now apply (round_eq h0 hist h ps O St fuel x p n).
  - unfold dawg_hash. cbn [d_root d_size]. rewrite (read_ok _ _ _ E2 E4). cbn [rbind]. now rewrite (proj2 (round_hash h0 hist h ps O St fuel x p n Ex Ep E4) Ro).
Qed.

(** A query gives the terms that lead to a final node and are near enough, each once,
    with their distances. *)
Theorem C101_query : forall R (rt : result_type R) alg alloc h0 calls hist h ps x p size q n, allocator alloc -> plainly 0 calls hist -> orderly hist -> perform_any_all alloc h0 [] calls = Ok (h, ps) ->
  exists_still hist x -> nth_error ps x = Some p -> ~ goes_round hist x -> (N.of_nat (length (made hist)) < 2 ^ 62)%N ->
  manageable q n -> (n <= SIZE_MAX)%N ->
  exists answers, lists alg q n (term_of hist x) answers /\
    yields rt alg h (Dawg p size) q n (map (fun a => r_update rt (fst a) (snd a)) answers).
Proof.
  intros R rt alg alloc h0 calls hist h ps x p size q n A P O E Ex Ep N Lk Lq Ln. pose proof (performed _ _ _ _ _ _ A P O E) as St.
  destruct (made_unf h0 hist h ps x p O St Ex Ep N) as (t & U & Hh & _ & Ti).
  exists (graded alg q n t). split; [apply graded_lists; auto; exact (proj1 (HeapProofs.unf_tsorted h) _ _ U)|].
  destruct (query_all_ok rt h alg q n (length (made hist)) Lq Ln Lk _ t U ltac:(lia)) as (M & Q). exists (S M). intros fuel Hf.
  unfold query_all, begin_query. cbn [new_transducer tr_alg tr_root d_root].
  rewrite Q by lia. unfold graded. rewrite map_map. reflexivity.
Qed.

(** Iterating lists as many terms as the constructor was told there are: the terms in
    order, and if there are fewer, the last one again and again. *)
Theorem C101_iterate : forall alloc h0 calls hist h ps x p size, allocator alloc -> plainly 0 calls hist -> orderly hist -> perform_any_all alloc h0 [] calls = Ok (h, ps) ->
  exists_still hist x -> nth_error ps x = Some p -> ~ goes_round hist x -> (size < 2 ^ 64)%N ->
  exists terms, sorted_by shortlex_lt terms /\ (forall w, In w terms <-> term_of hist x w) /\
    runs_to (fun fuel => iterate fuel h (Dawg p size)) (firstn (N.to_nat size) (terms ++ repeat (List.last terms []) (N.to_nat size))).
Proof.
  intros alloc h0 calls hist h ps x p size A P O E Ex Ep N Ls. pose proof (performed _ _ _ _ _ _ A P O E) as St.
  destruct (made_unf h0 hist h ps x p O St Ex Ep N) as (t & U & _ & _ & Ti).
  pose proof (proj1 (HeapProofs.unf_tsorted h) _ _ U) as So.
  exists (words t). split; [apply StronglySorted_sorted_by, words_sorted, So|]. split; [intros w; rewrite words_In by auto; apply Ti|].
  exists (tsize t + N.to_nat size + 2). intros fuel Hf.
  rewrite (iterate_ok fuel h _ t (N.to_nat size)); auto; try (cbn [d_size]; lia).
  f_equal. destruct (words t) as [|w l]; cbn [next_value tl].
  - rewrite (PropsForeign.emitted_firstn _ (N.to_nat size)) by lia. cbn [app List.last]. change ([] :: repeat [] ?n) with (repeat (@nil ascii) (S n)).
    rewrite !PropsForeign.firstn_repeat_le by lia. reflexivity.
  - rewrite (PropsForeign.emitted_firstn _ (N.to_nat size)) by lia. reflexivity.
Qed.

(** Two dictionaries are equal if they were told the same number of terms, have the
    same terms, and the same strings lead to a node. *)
Theorem C101_compare : forall alloc h0 calls hist h ps x1 p1 size1 x2 p2 size2, allocator alloc -> plainly 0 calls hist -> orderly hist -> perform_any_all alloc h0 [] calls = Ok (h, ps) ->
  exists_still hist x1 -> nth_error ps x1 = Some p1 -> ~ goes_round hist x1 ->
  exists_still hist x2 -> nth_error ps x2 = Some p2 -> ~ goes_round hist x2 ->
  exists answer, runs_to (fun fuel => dawg_eq fuel h (Dawg p1 size1) (Dawg p2 size2)) answer /\
    (answer = true <-> size1 = size2 /\ forall w, (term_of hist x1 w <-> term_of hist x2 w) /\ (destination hist x1 w = None <-> destination hist x2 w = None)).
Proof.
  intros alloc h0 calls hist h ps x1 p1 size1 x2 p2 size2 A P O E Ex1 Ep1 N1 Ex2 Ep2 N2. pose proof (performed _ _ _ _ _ _ A P O E) as St.
  destruct (made_unf h0 hist h ps x1 p1 O St Ex1 Ep1 N1) as (t1 & U1 & Hh1 & Pr1 & Ti1).
  destruct (made_unf h0 hist h ps x2 p2 O St Ex2 Ep2 N2) as (t2 & U2 & Hh2 & Pr2 & Ti2).
  destruct (dawg_eq_ok h (Dawg p1 size1) (Dawg p2 size2) t1 t2 U1 U2) as (r & R & I). exists r. split; [exact R|]. rewrite I. cbn [d_size].
  split; intros (Es & H); (split; [exact Es|]).
  - subst t2. intros w. split; [rewrite <- Ti1, <- Ti2; reflexivity|]. specialize (Pr1 w). specialize (Pr2 w). rewrite Pr1 in Pr2. clear -Pr2.
    destruct (destination hist x1 w), (destination hist x2 w); split; intros X; try discriminate X; try reflexivity; exfalso; [apply (proj1 Pr2)|apply (proj2 Pr2)]; congruence.
  - apply (present_ext (height t1)); [lia|exact (proj1 (HeapProofs.unf_tsorted h) _ _ U1)|exact (proj1 (HeapProofs.unf_tsorted h) _ _ U2)| |].
    + intros w. apply eq_true_iff_eq. rewrite Pr1, Pr2. destruct (H w) as (_ & H2). split; intros X Y; apply X, H2, Y.
    + intros w. apply eq_true_iff_eq. rewrite Ti1, Ti2. apply (H w).
Qed.

(** Dictionaries that are equal have the same hash code. *)
Theorem C101_hash : forall alloc h0 calls hist h ps x1 p1 size1 x2 p2 size2, allocator alloc -> plainly 0 calls hist -> orderly hist -> perform_any_all alloc h0 [] calls = Ok (h, ps) ->
  exists_still hist x1 -> nth_error ps x1 = Some p1 -> ~ goes_round hist x1 ->
  exists_still hist x2 -> nth_error ps x2 = Some p2 -> ~ goes_round hist x2 ->
  exists code1 code2, runs_to (fun fuel => dawg_hash fuel h (Dawg p1 size1)) code1 /\ runs_to (fun fuel => dawg_hash fuel h (Dawg p2 size2)) code2 /\
    (runs_to (fun fuel => dawg_eq fuel h (Dawg p1 size1) (Dawg p2 size2)) true -> code1 = code2).
Proof.
  intros alloc h0 calls hist h ps x1 p1 size1 x2 p2 size2 A P O E Ex1 Ep1 N1 Ex2 Ep2 N2. pose proof (performed _ _ _ _ _ _ A P O E) as St.
  destruct (made_unf h0 hist h ps x1 p1 O St Ex1 Ep1 N1) as (t1 & U1 & _). destruct (made_unf h0 hist h ps x2 p2 O St Ex2 Ep2 N2) as (t2 & U2 & _).
  assert (Hc : forall p t size, unf h p t -> runs_to (fun fuel => dawg_hash fuel h (Dawg p size)) (ModelHash.murmur_key (thash t) (ModelHash.murmur_key size ModelHash.DEADBEEF))).
  { intros p t size U. destruct (unf_read _ _ _ U) as (n & R & _ & Nu). exists (height t). intros fuel L. unfold dawg_hash. cbn [d_root d_size]. rewrite R. cbn [rbind]. rewrite (node_hash_ok fuel h n t Nu L). reflexivity. }
  eexists _, _. split; [apply Hc; exact U1|]. split; [apply Hc; exact U2|]. intros Q.
  destruct (dawg_eq_ok h (Dawg p1 size1) (Dawg p2 size2) t1 t2 U1 U2) as (r & R & I). rewrite <- (runs_to_det _ _ _ _ Q R) in I. destruct (proj1 I eq_refl) as (S & T). cbn [d_size] in S. subst. reflexivity.
Qed.

(** ** A case.  A ladder: the terms b and ac, bc; a node shared; a dead end under d *)
Definition other_calls : list node_call :=
  [Make false; Make false; Make true; Make true; Make false;
   Link 0 "a" 1; Link 0 "b" 2; Link 1 "c" 3; Link 2 "c" 3; Link 0 "d" 4; Make true]%char.

Lemma other_calls_orderly : orderly other_calls.
Proof.
  unfold other_calls. intros h1 o h2 E.
  do 11 (destruct h1 as [|? h1]; cbn [app] in E;
    [injection E as <- E; first [exact Logic.I | still | split; [still|split; [still|intros old Et; vm_compute in Et; discriminate Et]]]
    | injection E as <- E]).
  destruct h1; discriminate E.
Qed.

Lemma other_calls_end : ~ goes_round other_calls 0.
Proof.
  assert (Up : forall x c y, target other_calls x c = Some y -> x < y).
  { intros x c y T'. apply target_In in T'. unfold other_calls in T'. cbn [In] in T'. repeat (destruct T' as [T'|T']; [first [discriminate T' | injection T' as <- _ <-; lia]|]). destruct T'. }
  assert (Le : forall w x y, destination other_calls x w = Some y -> x <= y).
  { induction w as [|c w IH]; intros x y D; cbn [destination] in D; [injection D as <-; lia|].
    destruct (target other_calls x c) as [z|] eqn:T'; [|discriminate]. apply Up in T'. specialize (IH z y D). lia. }
  intros (v & y & c & w & _ & D). cbn [destination] in D. destruct (target other_calls y c) as [z|] eqn:T'; [|discriminate]. apply Up in T'. apply Le in D. lia.
Qed.

Example C101_case : exists h ps p,
  perform_any_all bump [] [] (map Plain other_calls) = Ok (h, ps) /\ nth_error ps 0 = Some p /\
  iterate 40 h (Dawg p 3) = Ok [lit "b"; lit "ac"; lit "bc"] /\ iterate 40 h (Dawg p 5) = Ok [lit "b"; lit "ac"; lit "bc"; lit "bc"; lit "bc"] /\
  query_all as_candidate 60 h (new_transducer STANDARD p) (lit "ab") 1 = Ok [(lit "b", 1%N); (lit "ac", 1%N)] /\
  (exists answers, lists STANDARD (lit "ab") 1 (term_of other_calls 0) answers /\ yields as_candidate STANDARD h (Dawg p 3) (lit "ab") 1 (map (fun a => (fst a, snd a)) answers)) /\
  (exists h', runs_to (fun fuel => destroy_dawg fuel h (Dawg p 3)) h' /\ (forall y q, y < 5 -> nth_error ps y = Some q -> hget h' q = None) /\ (forall q, nth_error ps 5 = Some q -> hget h' q <> None)) /\
  runs_to (fun fuel => dawg_eq fuel h (Dawg p 3) (Dawg p 3)) true.
Proof.
  destruct (perform_any_all bump [] [] (map Plain other_calls)) as [[h ps]| |] eqn:E; [|vm_compute in E; discriminate E|vm_compute in E; discriminate E].
  destruct (nth_error ps 0) as [p|] eqn:Ep; [|clear -E Ep; vm_compute in E; injection E as <- <-; discriminate Ep].
  assert (Ex : exists_still other_calls 0) by (unfold other_calls; still).
  exists h, ps, p. split; [reflexivity|]. split; [exact Ep|].
  split; [clear -E Ep; vm_compute in E; injection E as <- <-; injection Ep as <-; vm_compute; reflexivity|].
  split; [clear -E Ep; vm_compute in E; injection E as <- <-; injection Ep as <-; vm_compute; reflexivity|].
  split; [clear -E Ep; vm_compute in E; injection E as <- <-; injection Ep as <-; vm_compute; reflexivity|].
  split; [apply (C101_query _ as_candidate STANDARD bump [] (map Plain other_calls) other_calls h ps 0 p 3); auto using bump_allocator, plainly_plain, other_calls_orderly, other_calls_end; [reflexivity| |discriminate]|split].
  - apply manageable_short. discriminate.
  - destruct (C101_destroy bump [] (map Plain other_calls) other_calls h ps 0 p 3) as (h' & R & D1 & D2); auto using bump_allocator, plainly_plain, other_calls_orderly, other_calls_end.
    exists h'. split; [exact R|]. split.
    + intros y q Ly Q. do 5 (destruct y as [|y]; [first [now apply (D1 [] 0) | now apply (D1 (lit "a") 1) | now apply (D1 (lit "b") 2) | now apply (D1 (lit "ac") 3) | now apply (D1 (lit "d") 4)]|]). lia.
    + intros q Q. rewrite D2; [clear -E Q; vm_compute in E; injection E as <- <-; injection Q as <-; discriminate|]. intros w y D Q2.
      assert (Ey : exists_still other_calls y) by (eapply destination_still; [apply other_calls_orderly| |exact D]; exact Ex).
      assert (E5 : exists_still other_calls 5) by (unfold other_calls; still).
      assert (y = 5) by (eapply (st_inj _ _ _ _ (performed _ _ _ _ _ _ bump_allocator (plainly_plain _ _) other_calls_orderly E)); eauto). subst y.
      destruct w as [|c w _] using rev_ind; [discriminate D|]. rewrite destination_app in D. destruct (destination other_calls 0 w) as [z|]; [|discriminate].
      cbn [destination] in D. destruct (target other_calls z c) as [u|] eqn:T'; [|discriminate]. injection D as ->. apply target_In in T'. unfold other_calls in T'. cbn [In] in T'.
      repeat (destruct T' as [T'|T']; [discriminate T'|]). destruct T'.
  - destruct (C101_compare bump [] (map Plain other_calls) other_calls h ps 0 p 3 0 p 3) as (r & R & I); auto using bump_allocator, plainly_plain, other_calls_orderly, other_calls_end.
    destruct (proj2 I) as []. { split; [reflexivity|]. intros w. tauto. } exact R.
Qed.

(** The nodes 3 and 5 are final and lead nowhere. *)
Example C101_hash_case : exists h ps p q code, perform_any_all bump [] [] (map Plain other_calls) = Ok (h, ps) /\ nth_error ps 3 = Some p /\ nth_error ps 5 = Some q /\ p <> q /\
  dawg_eq 9 h (Dawg p 1) (Dawg q 1) = Ok true /\ dawg_hash 9 h (Dawg p 1) = Ok code /\ dawg_hash 9 h (Dawg q 1) = Ok code.
Proof. eexists _, _, _, _, _. split; [vm_compute; reflexivity|]. split; [reflexivity|]. split; [reflexivity|]. split; [discriminate|]. split; [vm_compute; reflexivity|]. split; vm_compute; reflexivity. Qed.

(** The nodes of C100's case go round: 3 leads back to 0. *)
Example C101_round_case : goes_round some_calls 0 /\ exists h ps p, perform_any_all bump [] [] (map Plain some_calls) = Ok (h, ps) /\ nth_error ps 0 = Some p /\
  forall size fuel, destroy_dawg fuel h (Dawg p size) = OOF /\ dawg_eq fuel h (Dawg p size) (Dawg p size) = OOF /\ dawg_hash fuel h (Dawg p size) = OOF.
Proof.
  assert (Ro : goes_round some_calls 0) by (exists (lit "ac"), 3, "d"%char, (lit "ac"); split; reflexivity). split; [exact Ro|].
  destruct (perform_any_all bump [] [] (map Plain some_calls)) as [[h ps]| |] eqn:E; [|vm_compute in E; discriminate E|vm_compute in E; discriminate E].
  destruct (nth_error ps 0) as [p|] eqn:Ep; [|clear -E Ep; vm_compute in E; injection E as <- <-; discriminate Ep].
  exists h, ps, p. split; [reflexivity|]. split; [exact Ep|]. intros size fuel.
  apply (C101_round_refuted bump [] (map Plain some_calls) some_calls h ps 0 p size fuel); auto using bump_allocator, plainly_plain, some_calls_orderly. unfold some_calls; still.
Qed.

Print Assumptions C101_destroy.
Print Assumptions C101_round_refuted.
Print Assumptions C101_query.
Print Assumptions C101_iterate.
Print Assumptions C101_compare.
Print Assumptions C101_hash.
