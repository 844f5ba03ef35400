(** * Property C103: saving and reading back any dictionary whose nodes exist. *)
From Verif Require Import Base Spec ModelTransducer ModelDawg ModelQuery ModelSerial ModelHand ModelHandMap SpecDawg SpecQuery SpecSerial SpecHand SpecHandMap SpecForeign SpecAlike
  TreeProofs HeapProofs SerialProofs HandProofs HandMapProofs HandDawgProofs PropsDawg PropsHand PropsHandDawg PropsRound.
From Verif Require QueryFacts RoundProofs SaveRoundProofs ForeignProofs.
Local Open Scope nat_scope.

(** Saving a dictionary made of nodes that were linked by hand ends, also if one can go
    round.  The message lists the nodes that one can get to, each once, which of them
    are final, and their edges, each once. *)
Theorem C103_save_hand : forall alloc h0 calls hist h ps x p size, allocator alloc -> plainly 0 calls hist -> orderly hist -> perform_any_all alloc h0 [] calls = Ok (h, ps) ->
  exists_still hist x -> nth_error ps x = Some p ->
  exists m, runs_to (fun fuel => to_protobuf fuel h (Dawg p size)) m /\ m_root m = p /\ m_size m = size /\
    NoDup (m_nodes m) /\ NoDup (m_finals m) /\ NoDup (m_edges m) /\
    (forall q, In q (m_nodes m) <-> exists w y, destination hist x w = Some y /\ nth_error ps y = Some q) /\
    (forall q, In q (m_finals m) <-> exists w y, destination hist x w = Some y /\ nth_error ps y = Some q /\ finality hist y = Some true) /\
    (forall q label r, In (EdgeMsg q label r) (m_edges m) <-> exists w y c z, destination hist x w = Some y /\ nth_error ps y = Some q /\
       target hist y c = Some z /\ nth_error ps z = Some r /\ label = label_to_msg c).
Proof.
  intros alloc h0 calls hist h ps x p size A P O E Ex Ep. pose proof (performed _ _ _ _ _ _ A P O E) as St.
  pose proof (hand_solid h0 hist h ps x p O St Ex Ep) as S. destruct (SaveRoundProofs.saved h (Dawg p size) S) as (m & Rm & D). destruct D as [Dn Df De Dr Ds N1 N2 N3]. cbn [d_root d_size] in *.
  assert (Re : forall q, reach h p q <-> exists w y, destination hist x w = Some y /\ nth_error ps y = Some q).
  { intros q. split; intros (w & X); [apply (hand_path h0 hist h ps O St w x p q Ex Ep) in X; destruct X as (y & X); eauto|]. exists w. apply (hand_path h0 hist h ps O St w x p q Ex Ep). exact X. }
  exists m. split; [exact Rm|]. split; [exact Dr|]. split; [exact Ds|]. split; [exact N1|]. split; [exact N2|]. split; [exact (NoDup_map_inv _ _ N3)|]. split; [|split].
  - intros q. rewrite Dn. apply Re.
  - intros q. rewrite Df, Re. split.
    + intros ((w & y & D & Ey) & n & G & F). exists w, y. split; [exact D|]. split; [exact Ey|]. destruct (st_node _ _ _ _ St y (destination_still hist O w x y Ex D)) as (q' & n' & E1 & E2 & _ & E4 & E5 & _). congruence.
    + intros (w & y & D & Ey & F). split; [eauto|]. destruct (st_node _ _ _ _ St y (destination_still hist O w x y Ex D)) as (q' & n' & E1 & E2 & _ & E4 & E5 & _). exists n'. split; congruence.
  - intros q label r. rewrite De. split.
    + intros (q0 & c & r0 & X & R & n & G & I). injection X as X1 X2 X3. subst q0 label r0. apply Re in R. destruct R as (w & y & D & Ey).
      destruct (st_node _ _ _ _ St y (destination_still hist O w x y Ex D)) as (q' & n' & E1 & E2 & _ & E4 & E5 & E6 & E7). assert (n' = n) by congruence. subst n'.
      apply edge_In_get in I; [|exact E6]. specialize (E7 c). destruct (target hist y c) as [z|] eqn:T; [|pose proof (eq_trans (eq_sym I) E7); discriminate]. destruct E7 as (r' & R1 & R2). exists w, y, c, z. repeat split; auto. pose proof (eq_trans (eq_sym I) R2) as Z. injection Z as ->. exact R1.
    + intros (w & y & c & z & D & Ey & T & Ez & ->). exists q, c, r. split; [reflexivity|]. split; [apply Re; eauto|].
      destruct (st_node _ _ _ _ St y (destination_still hist O w x y Ex D)) as (q' & n' & E1 & E2 & _ & E4 & E5 & E6 & E7). exists n'. split; [congruence|].
      specialize (E7 c). rewrite T in E7. destruct E7 as (r' & R1 & R2). apply edge_get_In. rewrite Ez in R1. injection R1 as ->. exact R2.
Qed.

(** Reading that message, in any memory, gives a dictionary that cannot be told apart
    from the one that was saved.  Nothing else in the memory changes, and the
    destructor of the new dictionary gives back what was taken; it ends when that of
    the saved one ends. *)
Theorem C103_read_hand : forall alloc alloc2 h0 calls hist h ps x p size m h1, allocator alloc -> allocator alloc2 -> plainly 0 calls hist -> orderly hist -> perform_any_all alloc h0 [] calls = Ok (h, ps) ->
  exists_still hist x -> nth_error ps x = Some p -> runs_to (fun fuel => to_protobuf fuel h (Dawg p size)) m ->
  exists h2 b, from_protobuf alloc2 h1 m = Ok (h2, b) /\ alike h (Dawg p size) h2 (b_dawg b) /\
    (forall w, accepts_from h2 (d_root (b_dawg b)) w <-> term_of hist x w) /\
    (forall q, allocated h1 q -> hget h2 q = hget h1 q) /\
    (forall fuel, match destroy_dawg fuel h (Dawg p size) with
       | Ok _ => exists h3, destroy fuel h2 b = Ok h3 /\ same_heap h3 h1
       | UB => False
       | OOF => destroy fuel h2 b = OOF end).
Proof.
  intros alloc alloc2 h0 calls hist h ps x p size m h1 A A2 P O E Ex Ep Rm. pose proof (performed _ _ _ _ _ _ A P O E) as St.
  pose proof (hand_solid h0 hist h ps x p O St Ex Ep) as S. destruct (SaveRoundProofs.saved h (Dawg p size) S) as (m' & Rm' & D). rewrite (DawgProofs.runs_to_det _ _ _ _ Rm Rm') in *.
  destruct (SaveRoundProofs.saved_and_read alloc2 h (Dawg p size) m' h1 A2 S D) as (h2 & b & E2 & _ & Al & Ac & Fr & De). exists h2, b. split; [exact E2|]. split; [exact Al|]. split; [|split; [exact Fr|exact De]].
  intros w. rewrite (Ac w). exact (hand_accepts h0 hist h ps x p O St Ex Ep w).
Qed.

(** The same for a dictionary that was itself read from a message that somebody else
    wrote: saved again and read again it is still the same. *)
Theorem C103_message : forall alloc alloc2 h0 m0 h b0 dead es h1, allocator alloc -> allocator alloc2 ->
  replay (m_nodes m0) [] [] (m_edges m0) = Some (dead, es) -> from_protobuf alloc h0 m0 = Ok (h, b0) ->
  (forall w i, walks (m_nodes m0) dead es (m_root m0) w i -> In i (m_nodes m0) /\ ~ In i dead) ->
  exists m, runs_to (fun fuel => to_protobuf fuel h (b_dawg b0)) m /\ well_formed m /\ m_size m = m_size m0 /\
  exists h2 b, from_protobuf alloc2 h1 m = Ok (h2, b) /\ alike h (b_dawg b0) h2 (b_dawg b) /\
    (forall w, accepts_from h2 (d_root (b_dawg b)) w <-> exists i, walks (m_nodes m0) dead es (m_root m0) w i /\ In i (m_finals m0)) /\
    (forall q, allocated h1 q -> hget h2 q = hget h1 q) /\
    (forall fuel, match destroy_dawg fuel h (b_dawg b0) with
       | Ok _ => exists h3, destroy fuel h2 b = Ok h3 /\ same_heap h3 h1
       | UB => False
       | OOF => destroy fuel h2 b = OOF end).
Proof.
  intros alloc alloc2 h0 m0 h b0 dead es h1 A A2 Er E Good. pose proof (ForeignProofs.from_protobuf_stands alloc h0 m0 A) as X. rewrite Er in X.
  destruct X as (f & h' & E1 & St). rewrite E in E1. injection E1 as <- ->. cbn [b_dawg].
  pose proof (foreign_solid _ _ _ _ _ _ _ _ St Good) as S. pose proof (foreign_accepts _ _ _ _ _ _ _ _ St Good) as Ac0.
  set (d := Dawg (f (m_root m0)) (m_size m0)) in *. destruct (SaveRoundProofs.saved h d S) as (m & Rm & D). exists m. split; [exact Rm|]. split; [exact (describes_well_formed _ _ _ D)|]. split; [exact (ds_size _ _ _ D)|].
  destruct (SaveRoundProofs.saved_and_read alloc2 h d m h1 A2 S D) as (h2 & b & E2 & _ & Al & Ac & Fr & De). exists h2, b. split; [exact E2|]. split; [exact Al|]. split; [|split; [exact Fr|exact De]].
  intros w. rewrite (Ac w). apply Ac0.
Qed.

(** For a dictionary that add() made there are no limits left: whatever the lengths are,
    the outcomes are the same (compare C25). *)
Theorem C103_built : forall alloc terms h d m h1 h2 b, allocator alloc -> dictionary terms h d ->
  runs_to (fun fuel => to_protobuf fuel h d) m -> from_protobuf alloc h1 m = Ok (h2, b) -> alike h d h2 (b_dawg b).
Proof.
  intros alloc terms h d m h1 h2 b A D Rm E. destruct (QueryFacts.dictionary_unf _ _ _ D) as (U & _).
  assert (S : RoundProofs.solid h (d_root d)).
  { intros w q P. destruct (unf_reach h (d_root d) q (ex_intro _ w P) _ U) as (t & Uq & _). apply unf_inv in Uq. destruct Uq as (n & Nq & G & So & _). eauto. }
  destruct (SaveRoundProofs.saved_and_read alloc h d m h1 A S (written h d m _ U Rm)) as (h3 & b3 & E3 & _ & Al & _). rewrite E in E3. injection E3 as <- <-. exact Al.
Qed.

(** ** Cases *)
Example C103_case : exists h ps p m, perform_any_all bump [] [] (map Plain swing) = Ok (h, ps) /\ nth_error ps 0 = Some p /\
  to_protobuf 5 h (Dawg p 3) = Ok m /\ length (m_nodes m) = 2 /\ length (m_finals m) = 1 /\ length (m_edges m) = 2 /\
  exists h2 b, from_protobuf bump [] m = Ok (h2, b) /\ iterate 20 h2 (b_dawg b) = Ok [lit "a"; lit "aba"; lit "ababa"] /\
    alike h (Dawg p 3) h2 (b_dawg b) /\ forall fuel, destroy fuel h2 b = OOF.
Proof.
  destruct (perform_any_all bump [] [] (map Plain swing)) as [[h ps]| |] eqn:E; [|vm_compute in E; discriminate E|vm_compute in E; discriminate E].
  destruct (nth_error ps 0) as [p|] eqn:Ep; [|clear -E Ep; vm_compute in E; injection E as <- <-; discriminate Ep].
  assert (Ex : exists_still swing 0) by (unfold swing; still).
  destruct (C103_save_hand bump [] (map Plain swing) swing h ps 0 p 3) as (m & Rm & _); auto using bump_allocator, plainly_plain, swing_orderly.
  destruct (C103_read_hand bump bump [] (map Plain swing) swing h ps 0 p 3 m []) as (h2 & b & E2 & Al & _ & _ & De); auto using bump_allocator, plainly_plain, swing_orderly.
  assert (F : to_protobuf 5 h (Dawg p 3) = Ok m).
  { destruct (to_protobuf 5 h (Dawg p 3)) as [m'| |] eqn:Em; [|clear -E Ep Em; vm_compute in E; injection E as <- <-; injection Ep as <-; vm_compute in Em; discriminate Em|clear -E Ep Em; vm_compute in E; injection E as <- <-; injection Ep as <-; vm_compute in Em; discriminate Em].
    f_equal. symmetry. apply (DawgProofs.runs_to_det _ (fun fuel => to_protobuf fuel h (Dawg p 3))); [exact Rm|]. exists 5. intros fuel L. eapply to_protobuf_mono; eauto. }
  exists h, ps, p, m. split; [reflexivity|]. split; [exact Ep|]. split; [exact F|].
  assert (L : length (m_nodes m) = 2 /\ length (m_finals m) = 1 /\ length (m_edges m) = 2).
  { clear -E Ep F. vm_compute in E. injection E as <- <-. injection Ep as <-. vm_compute in F. injection F as <-. auto. }
  destruct L as (L1 & L2 & L3). split; [exact L1|]. split; [exact L2|]. split; [exact L3|]. exists h2, b. split; [exact E2|]. split; [|split; [exact Al|]].
  - rewrite <- (al_iterate _ _ _ _ Al). clear -E Ep. vm_compute in E. injection E as <- <-. injection Ep as <-. vm_compute. reflexivity.
  - intros fuel. specialize (De fuel). destruct (C101_round_refuted bump [] (map Plain swing) swing h ps 0 p 3 fuel) as (X & _); auto using bump_allocator, plainly_plain, swing_orderly; [exists [], 0, "a"%char, (lit "b"); split; reflexivity|].
    rewrite X in De. exact De.
Qed.

Example C103_message_case : exists h b0 m h2 b, from_protobuf bump [] swing_message = Ok (h, b0) /\ to_protobuf 5 h (b_dawg b0) = Ok m /\ from_protobuf bump h m = Ok (h2, b) /\
  iterate 20 h2 (b_dawg b) = Ok [lit "a"; lit "aba"; lit "ababa"].
Proof. eexists _, _, _, _, _. split; [vm_compute; reflexivity|]. split; [vm_compute; reflexivity|]. split; [vm_compute; reflexivity|]. vm_compute. reflexivity. Qed.

Print Assumptions C103_save_hand.
Print Assumptions C103_read_hand.
Print Assumptions C103_message.
Print Assumptions C103_built.
