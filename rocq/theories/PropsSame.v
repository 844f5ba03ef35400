(** * Property C106: comparing any two dictionaries. *)
From Coq Require Import Sorting.Sorted.
From Verif Require Import Base Spec ModelTransducer ModelDawg ModelQuery ModelSerial ModelHand ModelHandMap SpecDawg SpecQuery SpecSerial SpecHand SpecHandMap SpecForeign SpecAlike SpecSame
  TreeProofs HeapProofs SerialProofs HandProofs HandMapProofs HandDawgProofs StoryProofs SameProofs PropsDawg PropsQuery PropsHand PropsHandDawg PropsRound.
From Verif Require QueryFacts RoundProofs ForeignProofs GraftProofs.
Local Open Scope nat_scope.

(** The nodes of a dictionary exist if add() made it, if it was read from a message
    whose edges lead to listed nodes, and if it was linked by hand in an orderly way. *)
Theorem C106_sound :
  (forall terms h d, dictionary terms h d -> sound h (d_root d)) /\
  (forall alloc h0 m h b dead es, allocator alloc -> replay (m_nodes m) [] [] (m_edges m) = Some (dead, es) -> from_protobuf alloc h0 m = Ok (h, b) ->
    (forall w i, walks (m_nodes m) dead es (m_root m) w i -> In i (m_nodes m) /\ ~ In i dead) -> sound h (d_root (b_dawg b))) /\
  (forall alloc h0 calls hist h ps x p, allocator alloc -> plainly 0 calls hist -> orderly hist -> perform_any_all alloc h0 [] calls = Ok (h, ps) ->
    exists_still hist x -> nth_error ps x = Some p -> sound h p).
Proof.
  split; [|split].
  - intros terms h d D. destruct (QueryFacts.dictionary_unf _ _ _ D) as (U & _). exact (GraftProofs.unf_solid _ _ _ U).
  - intros alloc h0 m h b dead es A Er E Good. pose proof (ForeignProofs.from_protobuf_stands alloc h0 m A) as X. rewrite Er in X.
    destruct X as (f & h' & E1 & St). rewrite E in E1. injection E1 as <- ->. exact (foreign_solid _ _ _ _ _ _ _ _ St Good).
  - intros alloc h0 calls hist h ps x p A P O E Ex Ep. exact (hand_solid h0 hist h ps x p O (performed _ _ _ _ _ _ A P O E) Ex Ep).
Qed.

Lemma ends_short : forall h p, sound h p -> ~ rounds h p -> exists k, short h p k.
Proof.
  intros h p S N. destruct (retold h p S) as (st & nodes & h0 & O & Er & Ex & St & _). exists (length (made st)). intros w q P.
  apply (hand_path h0 st h nodes O St w 0 p q Ex Er) in P. destruct P as (y & D & _). apply (walks_short st O 0 w y Ex); [|exact D].
  intros (v & z & c & u & D1 & D2). apply N. destruct (nth_error nodes z) as [r|] eqn:Ez.
  - pose proof (destination_still st O v 0 z Ex D1) as Ez'. exists v, r, c, u. split; [apply (hand_path h0 st h nodes O St v 0 p r Ex Er); eauto|]. apply (hand_path h0 st h nodes O St (c :: u) z r r Ez' Ez). eauto.
  - exfalso. apply nth_error_None in Ez. destruct (destination_still st O v 0 z Ex D1) as (L & _). rewrite (st_len _ _ _ _ St) in Ez. lia.
Qed.

(** operator== never reads what is not there.  If it ends, it says whether the two were
    told the same number of terms, have the same terms, and the same strings lead
    somewhere.  It ends if one cannot go round in one of them.  If one can and they are
    equal, it never ends. *)
Theorem C106_compare : forall h d1 d2, sound h (d_root d1) -> sound h (d_root d2) ->
  (forall fuel, match dawg_eq fuel h d1 d2 with
     | Ok answer => answer = true <-> d_size d1 = d_size d2 /\ same_strings h (d_root d1) h (d_root d2)
     | UB => False
     | OOF => True end) /\
  (d_size d1 <> d_size d2 \/ ~ rounds h (d_root d1) \/ ~ rounds h (d_root d2) -> exists answer, runs_to (fun fuel => dawg_eq fuel h d1 d2) answer) /\
  (d_size d1 = d_size d2 -> same_strings h (d_root d1) h (d_root d2) -> rounds h (d_root d1) -> forall fuel, dawg_eq fuel h d1 d2 = OOF).
Proof.
  intros h [p1 s1] [p2 s2] S1 S2. cbn [d_root d_size] in *.
  destruct (S1 [] p1 (path_nil _ _)) as (N1 & n1 & G1 & _). destruct (S2 [] p2 (path_nil _ _)) as (N2 & n2 & G2 & _).
  assert (Eq : forall fuel, dawg_eq fuel h (Dawg p1 s1) (Dawg p2 s2) = if N.eqb s1 s2 then node_eq fuel h n1 n2 else Ok false).
  { intros fuel. unfold dawg_eq. cbn [d_root d_size]. destruct (N.eqb s1 s2); cbn [negb]; [|reflexivity]. rewrite (read_ok _ _ _ N1 G1), (read_ok _ _ _ N2 G2). reflexivity. }
  assert (So : forall fuel, match dawg_eq fuel h (Dawg p1 s1) (Dawg p2 s2) with Ok answer => answer = true <-> s1 = s2 /\ same_strings h p1 h p2 | UB => False | OOF => True end).
  { intros fuel. rewrite Eq. destruct (N.eqb_spec s1 s2) as [->|Ne]; [|split; [discriminate|]; intros (X & _); contradiction].
    pose proof (eq_sound fuel h p1 p2 n1 n2 S1 S2 G1 G2) as X. destruct (node_eq fuel h n1 n2); auto. rewrite X. tauto. }
  split; [exact So|]. split.
  - intros C. destruct (N.eqb_spec s1 s2) as [->|Ne]; [|exists false; exists 0; intros fuel _; rewrite Eq; apply N.eqb_neq in Ne; try rewrite Ne; reflexivity].
    assert (K : exists k, short h p1 k \/ short h p2 k).
    { destruct C as [C|[C|C]]; [contradiction|destruct (ends_short _ _ S1 C) as (k & K)|destruct (ends_short _ _ S2 C) as (k & K)]; eauto. }
    destruct K as (k & K).
    assert (E : forall fuel, k <= fuel -> exists r, dawg_eq fuel h (Dawg p1 s2) (Dawg p2 s2) = Ok r).
    { intros fuel L. specialize (So fuel). rewrite Eq in So |- *. assert (K' : short h p1 fuel \/ short h p2 fuel) by (destruct K as [K|K]; [left|right]; intros w q P; specialize (K w q P); lia).
      pose proof (eq_ends fuel h p1 p2 n1 n2 S1 S2 G1 G2 K') as X. destruct (node_eq fuel h n1 n2); [eauto|destruct So|contradiction]. }
    destruct (E k (le_n k)) as (r & Er). exists r, k. intros fuel L. destruct (E fuel L) as (r' & Er'). rewrite Er'. f_equal. pose proof (So k) as X. rewrite Er in X. pose proof (So fuel) as Y. rewrite Er' in Y. apply eq_true_iff_eq. rewrite X, Y. reflexivity.
  - intros -> Sa Ro fuel. rewrite Eq, N.eqb_refl. exact (eq_forever fuel h p1 p2 n1 n2 S1 S2 G1 G2 Sa Ro).
Qed.

(** Dictionaries with the same size and the same strings, in the same memory or not,
    cannot be told apart: lookups, iterating, hash codes and queries have the same
    outcomes.  So it is for dictionaries that are equal, and for those that add() made
    from the same terms. *)
Theorem C106_alike : forall h1 d1 h2 d2, sound h1 (d_root d1) -> sound h2 (d_root d2) ->
  d_size d1 = d_size d2 -> same_strings h1 (d_root d1) h2 (d_root d2) -> alike h1 d1 h2 d2.
Proof. intros h1 d1 h2 d2 S1 S2 Es Sa. now apply same_alike. Qed.

Theorem C106_equal : forall h d1 d2 fuel, sound h (d_root d1) -> sound h (d_root d2) -> dawg_eq fuel h d1 d2 = Ok true -> alike h d1 h d2.
Proof. intros h d1 d2 fuel S1 S2 E. destruct (C106_compare h d1 d2 S1 S2) as (X & _). specialize (X fuel). rewrite E in X. destruct (proj1 X eq_refl) as (Es & Sa). now apply same_alike. Qed.

Lemma unf_strings : forall h1 p1 h2 p2 t, unf h1 p1 t -> unf h2 p2 t -> same_strings h1 p1 h2 p2.
Proof.
  intros h1 p1 h2 p2 t U1 U2 w. split; [rewrite (accepts_tin _ _ _ w U1), (accepts_tin _ _ _ w U2); reflexivity|].
  revert p1 p2 t U1 U2. induction w as [|c w IH]; intros p1 p2 t U1 U2; [split; intros _; eexists; constructor|].
  pose proof (unf_inv _ _ _ U1) as (n1 & _ & G1 & O1 & Us1 & _). pose proof (unf_inv _ _ _ U2) as (n2 & _ & G2 & O2 & Us2 & _).
  pose proof (unfs_get _ _ _ c Us1) as X1. pose proof (unfs_get _ _ _ c Us2) as X2.
  pose proof (GraftProofs.unf_solid _ _ _ U1) as S1. pose proof (GraftProofs.unf_solid _ _ _ U2) as S2.
  destruct (edge_get (nedges n1) c) as [q1|] eqn:E1; destruct (edge_get (nedges n2) c) as [q2|] eqn:E2.
  - destruct X1 as (t1 & T1 & V1). destruct X2 as (t2 & T2 & V2). assert (t2 = t1) by congruence. subst t2. apply edge_get_In in E1, E2.
    rewrite (leads_step _ _ _ _ _ w S1 G1 E1), (leads_step _ _ _ _ _ w S2 G2 E2). exact (IH q1 q2 t1 V1 V2).
  - destruct X1 as (t1 & T1 & _). congruence.
  - destruct X2 as (t2 & T2 & _). congruence.
  - split; intros (x & P); inversion P as [|? m ? z ? ? G I _]; subst.
    + assert (m = n1) by congruence. subst m. rewrite (edge_In_get _ _ _ _ O1 I) in E1. discriminate.
    + assert (m = n2) by congruence. subst m. rewrite (edge_In_get _ _ _ _ O2 I) in E2. discriminate.
Qed.

Theorem C106_built : forall terms h1 d1 h2 d2, dictionary terms h1 d1 -> dictionary terms h2 d2 -> alike h1 d1 h2 d2.
Proof.
  intros terms h1 d1 h2 d2 D1 D2. destruct (QueryFacts.dictionary_unf _ _ _ D1) as (U1 & _ & Z1). destruct (QueryFacts.dictionary_unf _ _ _ D2) as (U2 & _ & Z2).
  apply same_alike; [exact (GraftProofs.unf_solid _ _ _ U1)|exact (GraftProofs.unf_solid _ _ _ U2)|exact (unf_strings _ _ _ _ _ U1 U2)|congruence].
Qed.

(** Two dictionaries that go round, one whose "b" leads to a final node and one whose
    "b" does not; a dictionary that does not go round. *)
Definition wheels : list node_call :=
  [Make false; Make true; Make false; Link 0 "a" 0; Link 0 "b" 1; Make false; Link 3 "a" 3; Link 3 "b" 2; Make false; Link 4 "a" 1]%char.

Lemma wheels_orderly : orderly wheels.
Proof.
  unfold wheels. intros h1 o h2 E.
  do 10 (destruct h1 as [|? h1]; cbn [app] in E;
    [injection E as <- E; first [exact Logic.I | still | split; [still|split; [still|intros old Et; vm_compute in Et; discriminate Et]]]
    | injection E as <- E]).
  destruct h1; discriminate E.
Qed.

(** The comparison of the first with itself never ends, as the theorem says.  Nor does
    that of the first with the second, although they differ.  With the third it ends. *)
Example C106_case : exists h ps p q r, perform_any_all bump [] [] (map Plain wheels) = Ok (h, ps) /\
  nth_error ps 0 = Some p /\ nth_error ps 3 = Some q /\ nth_error ps 4 = Some r /\
  sound h p /\ sound h q /\ sound h r /\ rounds h p /\ rounds h q /\ ~ same_strings h p h q /\
  (forall fuel, dawg_eq fuel h (Dawg p 2) (Dawg p 2) = OOF) /\
  (forall fuel, dawg_eq fuel h (Dawg p 2) (Dawg q 2) = OOF) /\
  runs_to (fun fuel => dawg_eq fuel h (Dawg p 2) (Dawg q 3)) false /\
  runs_to (fun fuel => dawg_eq fuel h (Dawg p 2) (Dawg r 2)) false.
Proof.
  destruct (perform_any_all bump [] [] (map Plain wheels)) as [[h ps]| |] eqn:E; [|vm_compute in E; discriminate E|vm_compute in E; discriminate E].
  assert (So : forall x p, exists_still wheels x -> nth_error ps x = Some p -> sound h p).
  { intros x p. exact (proj2 (proj2 C106_sound) bump [] (map Plain wheels) wheels h ps x p bump_allocator (plainly_plain wheels 0) wheels_orderly E). }
  assert (S0 : exists_still wheels 0) by (unfold wheels; still). assert (S3 : exists_still wheels 3) by (unfold wheels; still). assert (S4 : exists_still wheels 4) by (unfold wheels; still).
  vm_compute in E. injection E as <- <-. eexists _, _, _, _, _. split; [reflexivity|]. split; [reflexivity|]. split; [reflexivity|]. split; [reflexivity|].
  pose proof (So 0 _ S0 eq_refl) as P0. pose proof (So 3 _ S3 eq_refl) as P3. pose proof (So 4 _ S4 eq_refl) as P4. clear So.
  split; [exact P0|]. split; [exact P3|]. split; [exact P4|].
  match type of P0 with sound ?h ?p => assert (R0 : rounds h p) by (exists [], p, "a"%char, []; split; [constructor|]; eapply path_cons; [vm_compute; reflexivity|left; reflexivity|constructor]) end.
  match type of P3 with sound ?h ?p => assert (R3 : rounds h p) by (exists [], p, "a"%char, []; split; [constructor|]; eapply path_cons; [vm_compute; reflexivity|left; reflexivity|constructor]) end.
  split; [exact R0|]. split; [exact R3|].
  split.
  { intros Sa. destruct (proj1 (proj1 (Sa (lit "b")))) as (z & n & Pz & Gz & Fz).
    - eexists _, _. split; [eapply path_cons; [vm_compute; reflexivity|right; left; reflexivity|constructor]|]. split; [vm_compute; reflexivity|reflexivity].
    - inversion Pz as [|? m ? y ? ? G I P']; subst. vm_compute in G. injection G as <-. destruct I as [I|[I|[]]]; [discriminate I|]. injection I as <-. inversion P'; subst. vm_compute in Gz. injection Gz as <-. discriminate Fz. }
  split; [exact (proj2 (proj2 (C106_compare _ (Dawg _ 2) (Dawg _ 2) P0 P0)) eq_refl (fun w => conj (iff_refl _) (iff_refl _)) R0)|].
  split.
  { intros fuel. unfold dawg_eq. cbn [d_root d_size N.eqb Pos.eqb negb]. destruct fuel as [|fuel]; [reflexivity|]. 
    match goal with |- rbind ?a _ = _ => let v := eval vm_compute in a in change a with v end. cbn [rbind].
    match goal with |- rbind ?a _ = _ => let v := eval vm_compute in a in change a with v end. cbn [rbind].
    generalize (S fuel). clear. induction n as [|k IH]; [reflexivity|].
    match goal with |- node_eq _ ?h _ _ = _ => set (H := h) in * end. cbn [node_eq nfin nedges length Bool.eqb negb Nat.eqb].
    match goal with |- (if ?c then _ else _) = _ => change c with false end. cbv iota.
    match goal with |- rbind ?a _ = _ => let v := eval vm_compute in a in change a with v end. cbn [rbind].
    match goal with |- rbind ?a _ = _ => let v := eval vm_compute in a in change a with v end. cbn [rbind]. rewrite IH. reflexivity. }
  split; [exists 0; intros [|fuel] _; reflexivity|exists 3; intros [|[|[|fuel]]] L; try lia; vm_compute; reflexivity].
Qed.

(** Two different nodes of C101's case. *)
Example C106_equal_case : exists h ps p q, perform_any_all bump [] [] (map Plain other_calls) = Ok (h, ps) /\ nth_error ps 3 = Some p /\ nth_error ps 5 = Some q /\ p <> q /\
  sound h p /\ sound h q /\ dawg_eq 9 h (Dawg p 1) (Dawg q 1) = Ok true /\ alike h (Dawg p 1) h (Dawg q 1).
Proof.
  destruct (perform_any_all bump [] [] (map Plain other_calls)) as [[h ps]| |] eqn:E; [|vm_compute in E; discriminate E|vm_compute in E; discriminate E].
  assert (So : forall x p, exists_still other_calls x -> nth_error ps x = Some p -> sound h p).
  { intros x p. exact (proj2 (proj2 C106_sound) bump [] (map Plain other_calls) other_calls h ps x p bump_allocator (plainly_plain other_calls 0) other_calls_orderly E). }
  assert (S3 : exists_still other_calls 3) by (unfold other_calls; still). assert (S5 : exists_still other_calls 5) by (unfold other_calls; still).
  vm_compute in E. injection E as <- <-. eexists _, _, _, _. split; [reflexivity|]. split; [reflexivity|]. split; [reflexivity|]. split; [discriminate|].
  pose proof (So 3 _ S3 eq_refl) as P3. pose proof (So 5 _ S5 eq_refl) as P5. split; [exact P3|]. split; [exact P5|].
  split; [vm_compute; reflexivity|]. apply (C106_equal _ (Dawg _ 1) (Dawg _ 1) 9 P3 P5). vm_compute; reflexivity.
Qed.

Print Assumptions C106_sound.
Print Assumptions C106_compare.
Print Assumptions C106_alike.
Print Assumptions C106_equal.
Print Assumptions C106_built.
