(** * Property C102: queries on dictionaries that go round. *)
From Coq Require Import Sorting.Sorted.
From Verif Require Import Base Spec ModelTransducer ModelDawg ModelQuery ModelSerial ModelHand ModelHandMap SpecDawg SpecQuery SpecSerial SpecSnapshot SpecLimits SpecHand SpecHandMap SpecForeign
  AlignProofs TransProofs StateProofs TreeProofs HeapProofs IterProofs DawgProofs BuildProofs2 QueryProofs QueryFacts SnapshotProofs HandProofs HandMapProofs HandDawgProofs PropsDawg PropsHand PropsHandDawg.
From Verif Require ForeignProofs RoundProofs IterRoundProofs.
Local Open Scope nat_scope.

Lemma lists_ext : forall alg x n (P Q : str -> Prop) answers, (forall w, P w <-> Q w) -> lists alg x n P answers -> lists alg x n Q answers.
Proof. intros alg x n P Q answers I (ND & H). split; [exact ND|]. intros w d. rewrite (H w d), (I w). reflexivity. Qed.

Lemma hand_solid : forall h0 hist h ps x p, orderly hist -> stands h0 hist h ps -> exists_still hist x -> nth_error ps x = Some p -> RoundProofs.solid h p.
Proof.
  intros h0 hist h ps x p O St Ex Ep w q P. apply (hand_path h0 hist h ps O St w x p q Ex Ep) in P. destruct P as (y & D & Q).
  destruct (st_node _ _ _ _ St y (destination_still hist O w x y Ex D)) as (q' & n & E1 & E2 & _ & E4 & E5 & E6 & E7). assert (q' = q) by congruence. subst q'. eauto.
Qed.

Lemma hand_accepts : forall h0 hist h ps x p, orderly hist -> stands h0 hist h ps -> exists_still hist x -> nth_error ps x = Some p ->
  forall w, accepts_from h p w <-> term_of hist x w.
Proof.
  intros h0 hist h ps x p O St Ex Ep w. split.
  - intros (q & n & P & G & F). apply (hand_path h0 hist h ps O St w x p q Ex Ep) in P. destruct P as (y & D & Q). exists y. split; [exact D|].
    destruct (st_node _ _ _ _ St y (destination_still hist O w x y Ex D)) as (q' & n' & E1 & E2 & _ & E4 & E5 & E6 & E7). congruence.
  - intros (y & D & F). destruct (st_node _ _ _ _ St y (destination_still hist O w x y Ex D)) as (q' & n' & E1 & E2 & _ & E4 & E5 & E6 & E7).
    exists q', n'. split; [apply (hand_path h0 hist h ps O St w x p q' Ex Ep); eauto|]. split; [exact E4|]. congruence.
Qed.

(** A query on a dictionary made of nodes that were linked by hand ends, also if one
    can go round, and gives the terms that are near enough, shorter ones first; one
    may stop after any of them. *)
Theorem C102_hand : forall R (rt : result_type R) alg alloc h0 calls hist h ps x p size q n, allocator alloc -> plainly 0 calls hist -> orderly hist -> perform_any_all alloc h0 [] calls = Ok (h, ps) ->
  exists_still hist x -> nth_error ps x = Some p ->
  manageable q n -> (n <= SIZE_MAX)%N -> (N.of_nat (length q) + n + 1 < 2 ^ 62)%N ->
  exists answers, lists alg q n (term_of hist x) answers /\ sorted_by shortlex_lt (map fst answers) /\
    yields rt alg h (Dawg p size) q n (map (fun a => r_update rt (fst a) (snd a)) answers) /\
    (forall fuel k, query_after rt fuel h (new_transducer alg p) q n k <> UB) /\
    (exists enough, forall fuel k, enough <= fuel -> exists it, query_after rt fuel h (new_transducer alg p) q n k = Ok it /\ shows rt answers k it).
Proof.
  intros R rt alg alloc h0 calls hist h ps x p size q n A P O E Ex Ep Lq Ln Ls. pose proof (performed _ _ _ _ _ _ A P O E) as St.
  destruct (RoundProofs.round_query rt h alg q n p (hand_solid h0 hist h ps x p O St Ex Ep) Lq Ln Ls) as (answers & Li & X). exists answers. split; [|exact X].
  eapply lists_ext; [|exact Li]. exact (hand_accepts h0 hist h ps x p O St Ex Ep).
Qed.

(** The same for a dictionary that was read from a message, whatever its edges are, as
    long as its nodes exist. *)
Lemma foreign_path : forall h0 h ids finals f dead es, ForeignProofs.stands h0 h ids finals f dead es -> forall w i q,
  (forall v j, walks ids dead es i v j -> In j ids /\ ~ In j dead) ->
  (path h (f i) w q <-> exists j, walks ids dead es i w j /\ q = f j).
Proof.
  intros h0 h ids finals f dead es St. induction w as [|c w IH]; intros i q Good.
  - split; [intros P; inversion P; subst; exists i; split; [constructor|reflexivity]|]. intros (j & Wk & ->). inversion Wk; subst. constructor.
  - destruct (Good [] i (walks_nil _ _ _ i)) as (I & D). destruct (ForeignProofs.st_node _ _ _ _ _ _ _ St i I D) as (n & G & Fn & So & Ed). specialize (Ed c). split.
    + intros P. inversion P as [|? n' ? r ? ? G' J P']; subst. assert (n' = n) by congruence. subst n'. apply edge_In_get in J; auto. rewrite J in Ed.
      destruct (leaving i c es) as [e|] eqn:L; cbn [option_map] in Ed; [|discriminate]. injection Ed as ->.
      apply IH in P'. { destruct P' as (j & Wk & ->). exists j. split; [econstructor; eauto|reflexivity]. }
      intros v j Wk. apply (Good (c :: v) j). econstructor; eauto.
    + intros (j & Wk & ->). inversion Wk as [|? ? e ? ? I' D' L Wk']; subst. rewrite L in Ed. cbn [option_map] in Ed. econstructor; [exact G|apply edge_get_In; exact Ed|].
      apply IH; [|eauto]. intros v k Wv. apply (Good (c :: v) k). econstructor; eauto.
Qed.

Lemma foreign_solid : forall h0 h ids finals f dead es i, ForeignProofs.stands h0 h ids finals f dead es ->
  (forall v j, walks ids dead es i v j -> In j ids /\ ~ In j dead) -> RoundProofs.solid h (f i).
Proof.
  intros h0 h ids finals f dead es i St Good w q P. apply (foreign_path _ _ _ _ _ _ _ St w i q Good) in P. destruct P as (j & Wk & ->). destruct (Good w j Wk) as (I & D).
  split; [apply (ForeignProofs.st_fresh _ _ _ _ _ _ _ St j I)|]. destruct (ForeignProofs.st_node _ _ _ _ _ _ _ St j I D) as (nd & G & _ & Sd & _). eauto.
Qed.

Lemma foreign_accepts : forall h0 h ids finals f dead es i, ForeignProofs.stands h0 h ids finals f dead es ->
  (forall v j, walks ids dead es i v j -> In j ids /\ ~ In j dead) ->
  forall w, accepts_from h (f i) w <-> exists j, walks ids dead es i w j /\ In j finals.
Proof.
  intros h0 h ids finals f dead es i St Good w. split.
  - intros (q & nd & P & G & F). apply (foreign_path _ _ _ _ _ _ _ St w i q Good) in P. destruct P as (j & Wk & ->). destruct (Good w j Wk) as (I & D).
    destruct (ForeignProofs.st_node _ _ _ _ _ _ _ St j I D) as (nd' & G' & Fn & _). assert (nd' = nd) by congruence. subst nd'. exists j. split; [exact Wk|]. apply ForeignProofs.member_In. unfold set_mem in Fn. unfold member. congruence.
  - intros (j & Wk & If). destruct (Good w j Wk) as (I & D). destruct (ForeignProofs.st_node _ _ _ _ _ _ _ St j I D) as (nd & G & Fn & _). exists (f j), nd.
    split; [apply (foreign_path _ _ _ _ _ _ _ St w i (f j) Good); eauto|]. split; [exact G|]. rewrite Fn. apply ForeignProofs.member_In in If. exact If.
Qed.

Theorem C102_message : forall R (rt : result_type R) alg alloc h m h' b dead es x n, allocator alloc ->
  replay (m_nodes m) [] [] (m_edges m) = Some (dead, es) -> from_protobuf alloc h m = Ok (h', b) ->
  (forall w i, walks (m_nodes m) dead es (m_root m) w i -> In i (m_nodes m) /\ ~ In i dead) ->
  manageable x n -> (n <= SIZE_MAX)%N -> (N.of_nat (length x) + n + 1 < 2 ^ 62)%N ->
  exists answers, lists alg x n (fun w => exists i, walks (m_nodes m) dead es (m_root m) w i /\ In i (m_finals m)) answers /\ sorted_by shortlex_lt (map fst answers) /\
    yields rt alg h' (b_dawg b) x n (map (fun a => r_update rt (fst a) (snd a)) answers) /\
    (forall fuel k, query_after rt fuel h' (new_transducer alg (d_root (b_dawg b))) x n k <> UB) /\
    (exists enough, forall fuel k, enough <= fuel -> exists it, query_after rt fuel h' (new_transducer alg (d_root (b_dawg b))) x n k = Ok it /\ shows rt answers k it).
Proof.
  intros R rt alg alloc h m h' b dead es x n A Er E Good Lx Ln Ls. pose proof (ForeignProofs.from_protobuf_stands alloc h m A) as X. rewrite Er in X.
  destruct X as (f & h1 & E1 & St). rewrite E in E1. injection E1 as <- ->. cbn [b_dawg d_root].
  destruct (RoundProofs.round_query rt h' alg x n (f (m_root m)) (foreign_solid _ _ _ _ _ _ _ _ St Good) Lx Ln Ls) as (answers & Li & X). exists answers. split; [|exact X].
  eapply lists_ext; [|exact Li]. exact (foreign_accepts _ _ _ _ _ _ _ _ St Good).
Qed.

(** Iterating over a dictionary gives as many terms as it was told there are, the
    first ones in order, if there is one more.  [terms] are the first terms. *)
Theorem C102_iterate_hand : forall alloc h0 calls hist h ps x p size terms, allocator alloc -> plainly 0 calls hist -> orderly hist -> perform_any_all alloc h0 [] calls = Ok (h, ps) ->
  exists_still hist x -> nth_error ps x = Some p ->
  sorted_by shortlex_lt terms -> (forall w, In w terms -> term_of hist x w) -> (forall v w, In w terms -> term_of hist x v -> shortlex_lt v w -> In v terms) ->
  N.to_nat size < length terms -> (size < 2 ^ 64)%N ->
  runs_to (fun fuel => iterate fuel h (Dawg p size)) (firstn (N.to_nat size) terms).
Proof.
  intros alloc h0 calls hist h ps x p size terms A P O E Ex Ep Ss It Dn Ls Lw. pose proof (performed _ _ _ _ _ _ A P O E) as St.
  pose proof (hand_accepts h0 hist h ps x p O St Ex Ep) as Ac.
  apply IterRoundProofs.round_iterate; auto.
  - exact (hand_solid h0 hist h ps x p O St Ex Ep).
  - apply sorted_by_StronglySorted; [exact shortlex_trans|exact Ss].
  - intros w J. apply Ac, It, J.
  - intros v w J K X. apply (Dn v w J); [apply Ac, K|exact X].
Qed.

Theorem C102_iterate_message : forall alloc h m h' b dead es terms, allocator alloc ->
  replay (m_nodes m) [] [] (m_edges m) = Some (dead, es) -> from_protobuf alloc h m = Ok (h', b) ->
  (forall w i, walks (m_nodes m) dead es (m_root m) w i -> In i (m_nodes m) /\ ~ In i dead) ->
  sorted_by shortlex_lt terms -> (forall w, In w terms -> exists i, walks (m_nodes m) dead es (m_root m) w i /\ In i (m_finals m)) ->
  (forall v w i, In w terms -> walks (m_nodes m) dead es (m_root m) v i -> In i (m_finals m) -> shortlex_lt v w -> In v terms) ->
  N.to_nat (m_size m) < length terms -> (m_size m < 2 ^ 64)%N ->
  runs_to (fun fuel => iterate fuel h' (b_dawg b)) (firstn (N.to_nat (m_size m)) terms).
Proof.
  intros alloc h m h' b dead es terms A Er E Good Ss It Dn Ls Lw. pose proof (ForeignProofs.from_protobuf_stands alloc h m A) as X. rewrite Er in X.
  destruct X as (f & h1 & E1 & St). rewrite E in E1. injection E1 as <- ->. cbn [b_dawg].
  pose proof (foreign_accepts _ _ _ _ _ _ _ _ St Good) as Ac. apply IterRoundProofs.round_iterate; auto.
  - exact (foreign_solid _ _ _ _ _ _ _ _ St Good).
  - apply sorted_by_StronglySorted; [exact shortlex_trans|exact Ss].
  - intros w J. apply Ac, It, J.
  - intros v w J K X. apply Ac in K. destruct K as (i & K1 & K2). exact (Dn v w i J K1 K2 X).
Qed.

(** If one can go round and there are no more terms than the dictionary was told,
    iterating never ends: the iterator looks for one term more than it gives. *)
Theorem C102_forever_hand_refuted : forall alloc h0 calls hist h ps x p size fuel, allocator alloc -> plainly 0 calls hist -> orderly hist -> perform_any_all alloc h0 [] calls = Ok (h, ps) ->
  exists_still hist x -> nth_error ps x = Some p -> goes_round hist x ->
  (forall terms, NoDup terms -> (forall w, In w terms -> term_of hist x w) -> length terms <= N.to_nat size) -> (size < 2 ^ 64)%N ->
  iterate fuel h (Dawg p size) = OOF.
Proof.
  intros alloc h0 calls hist h ps x p size fuel A P O E Ex Ep Ro Few Lw. pose proof (performed _ _ _ _ _ _ A P O E) as St.
  pose proof (hand_accepts h0 hist h ps x p O St Ex Ep) as Ac.
  apply IterRoundProofs.round_forever; auto.
  - exact (hand_solid h0 hist h ps x p O St Ex Ep).
  - destruct Ro as (v & y & c & w & D1 & D2). pose proof (destination_still hist O v x y Ex D1) as Ey. destruct (st_node _ _ _ _ St y Ey) as (q & n & E1 & _).
    exists v, q, c, w. split; [apply (hand_path h0 hist h ps O St v x p q Ex Ep); eauto|]. apply (hand_path h0 hist h ps O St (c :: w) y q q Ey E1). eauto.
  - intros terms ND It. apply Few; [exact ND|]. intros w J. apply Ac, It, J.
Qed.

Theorem C102_forever_message_refuted : forall alloc h m h' b dead es fuel, allocator alloc ->
  replay (m_nodes m) [] [] (m_edges m) = Some (dead, es) -> from_protobuf alloc h m = Ok (h', b) ->
  (forall w i, walks (m_nodes m) dead es (m_root m) w i -> In i (m_nodes m) /\ ~ In i dead) ->
  (exists v i c w, walks (m_nodes m) dead es (m_root m) v i /\ walks (m_nodes m) dead es i (c :: w) i) ->
  (forall terms, NoDup terms -> (forall w, In w terms -> exists i, walks (m_nodes m) dead es (m_root m) w i /\ In i (m_finals m)) -> length terms <= N.to_nat (m_size m)) ->
  (m_size m < 2 ^ 64)%N -> iterate fuel h' (b_dawg b) = OOF.
Proof.
  intros alloc h m h' b dead es fuel A Er E Good (v & i & c & w & W1 & W2) Few Lw. pose proof (ForeignProofs.from_protobuf_stands alloc h m A) as X. rewrite Er in X.
  destruct X as (f & h1 & E1 & St). rewrite E in E1. injection E1 as <- ->. cbn [b_dawg].
  pose proof (foreign_accepts _ _ _ _ _ _ _ _ St Good) as Ac. apply IterRoundProofs.round_forever; auto.
  - exact (foreign_solid _ _ _ _ _ _ _ _ St Good).
  - exists v, (f i), c, w. split; [apply (foreign_path _ _ _ _ _ _ _ St v (m_root m) (f i) Good); eauto|].
    apply (foreign_path _ _ _ _ _ _ _ St (c :: w) i (f i)); [|eauto]. intros u j W3. apply (Good (v ++ u) j). clear -W1 W3. induction W1; cbn [app]; [exact W3|]. econstructor; eauto.
  - intros terms ND It. apply Few; [exact ND|]. intros w' J. apply Ac, It, J.
Qed.

(** ** Cases *)
(** The terms a, aba, ababa, ... *)
Definition swing : list node_call := [Make false; Make true; Link 0 "a" 1; Link 1 "b" 0]%char.

Lemma swing_orderly : orderly swing.
Proof.
  unfold swing. intros h1 o h2 E.
  do 4 (destruct h1 as [|? h1]; cbn [app] in E;
    [injection E as <- E; first [exact Logic.I | still | split; [still|split; [still|intros old Et; vm_compute in Et; discriminate Et]]]
    | injection E as <- E]).
  destruct h1; discriminate E.
Qed.

Lemma swing_term : forall w, term_of swing 0 w -> w = lit "a" \/ w = lit "aba" \/ 5 <= length w.
Proof.
  assert (T0 : forall c, target swing 0 c = if ceqb "a" c then Some 1 else None) by (intros c; reflexivity).
  assert (T1 : forall c, target swing 1 c = if ceqb "b" c then Some 0 else None) by (intros c; reflexivity).
  assert (Ce : forall a c, ceqb a c = true -> c = a) by (intros a c X; symmetry; now apply ceqb_true).
  intros w (y & D & F).
  destruct w as [|c1 w]; cbn [destination] in D; [injection D as <-; discriminate F|]. rewrite T0 in D. destruct (ceqb "a" c1) eqn:X1; [|discriminate]. apply Ce in X1. subst c1.
  destruct w as [|c2 w]; cbn [destination] in D; [now left|]. rewrite T1 in D. destruct (ceqb "b" c2) eqn:X2; [|discriminate]. apply Ce in X2. subst c2.
  destruct w as [|c3 w]; cbn [destination] in D; [injection D as <-; discriminate F|]. rewrite T0 in D. destruct (ceqb "a" c3) eqn:X3; [|discriminate]. apply Ce in X3. subst c3.
  destruct w as [|c4 w]; cbn [destination] in D; [right; now left|]. rewrite T1 in D. destruct (ceqb "b" c4) eqn:X4; [|discriminate].
  destruct w as [|c5 w]; cbn [destination] in D; [injection D as <-; discriminate F|]. right; right. cbn [length]. lia.
Qed.

Example C102_case : goes_round swing 0 /\ exists h ps p, perform_any_all bump [] [] (map Plain swing) = Ok (h, ps) /\ nth_error ps 0 = Some p /\
  query_all as_candidate 60 h (new_transducer STANDARD p) (lit "ab") 1 = Ok [(lit "a", 1%N); (lit "aba", 1%N)] /\
  (exists answers, lists STANDARD (lit "ab") 1 (term_of swing 0) answers /\ yields as_candidate STANDARD h (Dawg p 0) (lit "ab") 1 (map (fun a => (fst a, snd a)) answers)) /\
  runs_to (fun fuel => iterate fuel h (Dawg p 1)) [lit "a"] /\ iterate 20 h (Dawg p 3) = Ok [lit "a"; lit "aba"; lit "ababa"].
Proof.
  split; [exists [], 0, "a"%char, (lit "b"); split; reflexivity|].
  destruct (perform_any_all bump [] [] (map Plain swing)) as [[h ps]| |] eqn:E; [|vm_compute in E; discriminate E|vm_compute in E; discriminate E].
  destruct (nth_error ps 0) as [p|] eqn:Ep; [|clear -E Ep; vm_compute in E; injection E as <- <-; discriminate Ep].
  assert (Ex : exists_still swing 0) by (unfold swing; still).
  exists h, ps, p. split; [reflexivity|]. split; [exact Ep|].
  split; [clear -E Ep; vm_compute in E; injection E as <- <-; injection Ep as <-; vm_compute; reflexivity|]. split; [|split].
  - destruct (C102_hand _ as_candidate STANDARD bump [] (map Plain swing) swing h ps 0 p 0 (lit "ab") 1) as (answers & X1 & _ & X2 & _); auto using bump_allocator, plainly_plain, swing_orderly; [apply manageable_short; discriminate|discriminate|reflexivity|].
    exists answers. auto.
  - apply (C102_iterate_hand bump [] (map Plain swing) swing h ps 0 p 1 [lit "a"; lit "aba"]); auto using bump_allocator, plainly_plain, swing_orderly; [| | |reflexivity].
    + repeat constructor.
    + intros w [<-|[<-|[]]]; exists 1; split; reflexivity.
    + intros v w [<-|[<-|[]]] Tv L; (destruct (swing_term v Tv) as [->|[->|L5]]; [now left|right; now left|]); destruct L as [L|[L _]]; cbn [length lit] in L; cbn in L; lia.
  - clear -E Ep; vm_compute in E; injection E as <- <-; injection Ep as <-; vm_compute; reflexivity.
Qed.

(** A node that leads to itself and is not final: begin() does not return. *)
Definition whirl : list node_call := [Make false; Link 0 "a" 0]%char.

Example C102_forever_case : exists h ps p, perform_any_all bump [] [] (map Plain whirl) = Ok (h, ps) /\ nth_error ps 0 = Some p /\ forall fuel, iterate fuel h (Dawg p 0) = OOF.
Proof.
  assert (O : orderly whirl).
  { unfold whirl. intros h1 o h2 E. do 2 (destruct h1 as [|? h1]; cbn [app] in E;
      [injection E as <- E; first [exact Logic.I | still | split; [still|split; [still|intros old Et; vm_compute in Et; discriminate Et]]] | injection E as <- E]).
    destruct h1; discriminate E. }
  destruct (perform_any_all bump [] [] (map Plain whirl)) as [[h ps]| |] eqn:E; [|vm_compute in E; discriminate E|vm_compute in E; discriminate E].
  destruct (nth_error ps 0) as [p|] eqn:Ep; [|clear -E Ep; vm_compute in E; injection E as <- <-; discriminate Ep].
  exists h, ps, p. split; [reflexivity|]. split; [exact Ep|]. intros fuel.
  apply (C102_forever_hand_refuted bump [] (map Plain whirl) whirl h ps 0 p 0 fuel); auto using bump_allocator, plainly_plain; [unfold whirl; still|exists [], 0, "a"%char, []; split; reflexivity| |reflexivity].
  assert (D0 : forall w y, destination whirl 0 w = Some y -> y = 0).
  { induction w as [|c w IH]; intros y D; cbn [destination] in D; [now injection D|]. change (target whirl 0 c) with (if ceqb "a" c then Some 0 else None) in D.
    destruct (ceqb "a" c); [now apply IH|discriminate]. }
  intros [|w terms] _ It; [cbn; lia|]. destruct (It w (or_introl eq_refl)) as (y & D & F). apply D0 in D. subst y. discriminate F.
Qed.

(** The same two as messages. *)
Definition swing_message : message := Message [1; 2]%N [2]%N [EdgeMsg 1 97 2; EdgeMsg 2 98 1] 1 3.
Definition whirl_message : message := Message [1]%N [] [EdgeMsg 1 97 1] 1 0.

Example C102_message_case :
  (exists dead es, replay (m_nodes swing_message) [] [] (m_edges swing_message) = Some (dead, es) /\
    (forall w i, walks (m_nodes swing_message) dead es (m_root swing_message) w i -> In i (m_nodes swing_message) /\ ~ In i dead)) /\
  (exists h b, from_protobuf bump [] swing_message = Ok (h, b) /\ iterate 20 h (b_dawg b) = Ok [lit "a"; lit "aba"; lit "ababa"] /\
    query_all as_candidate 60 h (new_transducer STANDARD (d_root (b_dawg b))) (lit "ab") 1 = Ok [(lit "a", 1%N); (lit "aba", 1%N)]) /\
  (exists h b, from_protobuf bump [] whirl_message = Ok (h, b) /\ forall fuel, iterate fuel h (b_dawg b) = OOF).
Proof.
  split; [|split].
  - eexists _, _. split; [reflexivity|].
    assert (W : forall w i j, walks (m_nodes swing_message) [] (rev (m_edges swing_message)) i w j -> In i (m_nodes swing_message) -> In j (m_nodes swing_message)).
    { intros w i j Wk. induction Wk as [i|i c e w j _ _ L _ IH]; [auto|]. intros _. apply IH. cbn [swing_message m_edges rev app] in L. rewrite !ForeignProofs.leaving_cons in L.
      repeat (destruct (_ && _) in L; [injection L as <-; cbn; auto|]). discriminate. }
    intros w i Wk. split; [apply (W w (m_root swing_message) i Wk); now left|intros []].
  - eexists _, _. split; [vm_compute; reflexivity|]. split; vm_compute; reflexivity.
  - destruct (from_protobuf bump [] whirl_message) as [[h b]| |] eqn:E; [|vm_compute in E; discriminate E|vm_compute in E; discriminate E].
    exists h, b. split; [reflexivity|]. intros fuel.
    assert (W : forall w i j, walks (m_nodes whirl_message) [] (rev (m_edges whirl_message)) i w j -> i = 1%N -> j = 1%N).
    { intros w i j Wk. induction Wk as [i|i c e w j _ _ L _ IH]; [auto|]. intros _. apply IH. cbn [whirl_message m_edges rev app] in L. rewrite !ForeignProofs.leaving_cons in L.
      repeat (destruct (_ && _) in L; [injection L as <-; reflexivity|]). discriminate. }
    apply (C102_forever_message_refuted bump [] whirl_message h b [] (rev (m_edges whirl_message)) fuel); auto using bump_allocator, plainly_plain; [| | |reflexivity].
    + intros w i Wk. rewrite (W w _ i Wk eq_refl). split; [now left|intros []].
    + exists [], 1%N, "a"%char, []. split; [constructor|]. econstructor; [now left|intros []|reflexivity|constructor].
    + intros [|w terms] _ It; [cbn; lia|]. destruct (It w (or_introl eq_refl)) as (i & _ & []).
Qed.

Print Assumptions C102_hand.
Print Assumptions C102_message.
Print Assumptions C102_iterate_hand.
Print Assumptions C102_iterate_message.
Print Assumptions C102_forever_hand_refuted.
Print Assumptions C102_forever_message_refuted.
