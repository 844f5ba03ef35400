(** * Property C100: nodes that a caller makes and links by hand. *)
From Coq Require Import Sorting.Sorted.
From Verif Require Import Base Spec ModelDawg ModelHand SpecDawg SpecHand TreeProofs HeapProofs HandProofs PropsDawg.
Local Open Scope nat_scope.

Lemma hand_contains : forall h0 hist h ps, orderly hist -> stands h0 hist h ps ->
  forall w i x p, (i + N.of_nat (length w) <= 2147483647)%N -> exists_still hist x -> nth_error ps x = Some p ->
  (do q <- contains_loop h p i w; if N.eqb q null then Ok false else do n <- read h q; Ok (nfin n)) =
  Ok (match destination hist x w with Some y => match finality hist y with Some b => b | None => false end | None => false end).
Proof.
  intros h0 hist h ps O St. induction w as [|c w IH]; intros i x p Li E Ep;
    destruct (st_node _ _ _ _ St x E) as (p' & n & E1 & E2 & _ & E4 & E5 & E6 & E7); rewrite Ep in E1; injection E1 as <-; cbn [contains_loop destination length] in *.
  - cbn [rbind]. destruct (N.eqb_spec p null) as [->|_]; [contradiction|]. rewrite (read_ok _ _ _ E2 E4). cbn [rbind]. now rewrite E5.
  - destruct (N.eqb_spec p null) as [->|_]; [contradiction|]. rewrite (read_ok _ _ _ E2 E4). cbn [rbind].
    destruct (N.eqb_spec i 2147483647) as [->|_]; [lia|]. unfold transition. specialize (E7 c). destruct (target hist x c) as [y|] eqn:Et.
    + destruct E7 as (q & Q1 & Q2). rewrite Q2. apply IH; [lia| |exact Q1]. eapply target_kept; eauto.
    + rewrite E7. destruct w; cbn [contains_loop]; rewrite ?N.eqb_refl; reflexivity.
Qed.

Lemma hand_says : forall h0 hist h ps, orderly hist -> stands h0 hist h ps ->
    length ps = length (made hist) /\
    (forall x, exists_still hist x -> exists p n,
       nth_error ps x = Some p /\ p <> null /\ hget h0 p = None /\ read h p = Ok n /\
       finality hist x = Some (nfin n) /\
       StronglySorted (fun a b => (schar (fst a) < schar (fst b))%Z) (nedges n) /\
       (forall c q, In (c, q) (nedges n) <-> exists y, target hist x c = Some y /\ nth_error ps y = Some q) /\
       (forall c, transition n c = match target hist x c with Some y => nth y ps null | None => null end) /\
       (forall c y, target hist x c = Some y -> exists_still hist y) /\
       forall size w, (N.of_nat (length w) <= 2147483647)%N ->
         contains h (Dawg p size) w =
         Ok (match destination hist x w with Some y => match finality hist y with Some b => b | None => false end | None => false end)) /\
    (forall x y p, exists_still hist x -> exists_still hist y -> nth_error ps x = Some p -> nth_error ps y = Some p -> x = y) /\
    (forall p, hget h p <> None <-> hget h0 p <> None \/ exists x, exists_still hist x /\ nth_error ps x = Some p) /\
    (forall p, hget h0 p <> None -> hget h p = hget h0 p).
Proof.
  intros h0 hist h ps O St. pose proof St as [Ln Nd Ij Ot]. split; [exact Ln|]. split; [|split; [exact Ij|split]].
  - intros x Ex. destruct (Nd x Ex) as (p & n & E1 & E2 & E3 & E4 & E5 & E6 & E7). exists p, n. split; [exact E1|]. split; [exact E2|]. split; [exact E3|].
    split; [now apply read_ok|]. split; [exact E5|]. split; [exact E6|]. split; [|split; [|split]].
    + intros c q. specialize (E7 c). destruct (target hist x c) as [y|] eqn:Et.
      * destruct E7 as (r & R1 & R2). split.
        -- intros J. exists y. split; [reflexivity|]. rewrite R1. rewrite (edge_In_get _ _ _ _ E6 J) in R2. congruence.
        -- intros (y' & Y & Q). injection Y as <-. apply edge_get_In. congruence.
      * split; [intros J; destruct (proj1 (edge_get_None _ _ _) E7 q J)|intros (y & Y & _); discriminate].
    + intros c. unfold transition. specialize (E7 c). destruct (target hist x c) as [y|] eqn:Et; [|now rewrite E7].
      destruct E7 as (r & R1 & R2). rewrite R2. symmetry. now apply nth_error_nth.
    + intros c y. now apply target_kept.
    + intros size w Lw. unfold contains. cbn [d_root]. eapply hand_contains; eauto.
  - intros p. split.
    + intros N. destruct (some_or_none (fun x => exists_still hist x /\ nth_error ps x = Some p) (length ps)) as [(x & _ & S & Q)|D]; [|right; eauto|left].
      { intros x. destruct (still_dec hist x) as [S|S]; [|right; tauto]. destruct (nth_error ps x) as [q|]; [|right; intros (_ & Q); discriminate].
        destruct (N.eq_dec q p) as [->|Nq]; [left; auto|right; intros (_ & Q); congruence]. }
      rewrite <- Ot; [exact N|]. intros x S Q. apply (D x); [|auto]. apply nth_error_Some. congruence.
    + intros [N|(x & S & Q)].
      * rewrite Ot; [exact N|]. intros x S Q. destruct (Nd x S) as (p' & n & E1 & _ & E3 & _). congruence.
      * destruct (Nd x S) as (p' & n & E1 & _ & _ & E4 & _). congruence.
  - intros p N. apply Ot. intros x S Q. destruct (Nd x S) as (p' & n & E1 & _ & E3 & _). congruence.
Qed.

(** Every orderly history of making, marking and linking nodes runs, with every
    allocator and in every memory.  Then every node that exists has an address of its
    own that was free; it is final as it was made or marked last; its edges, which
    for_each_edge reports in the order of the signed labels, and transition lead to the
    nodes it was linked to last; a dictionary with that root contains the terms that
    lead to a final node.  What was replaced is freed; all other memory is as before. *)
Theorem C100_history : forall alloc h0 hist, allocator alloc -> orderly hist ->
  exists h ps, perform_all alloc h0 [] hist = Ok (h, ps) /\ length ps = length (made hist) /\
    (forall x, exists_still hist x -> exists p n,
       nth_error ps x = Some p /\ p <> null /\ hget h0 p = None /\ read h p = Ok n /\
       finality hist x = Some (nfin n) /\
       StronglySorted (fun a b => (schar (fst a) < schar (fst b))%Z) (nedges n) /\
       (forall c q, In (c, q) (nedges n) <-> exists y, target hist x c = Some y /\ nth_error ps y = Some q) /\
       (forall c, transition n c = match target hist x c with Some y => nth y ps null | None => null end) /\
       (forall c y, target hist x c = Some y -> exists_still hist y) /\
       forall size w, (N.of_nat (length w) <= 2147483647)%N ->
         contains h (Dawg p size) w =
         Ok (match destination hist x w with Some y => match finality hist y with Some b => b | None => false end | None => false end)) /\
    (forall x y p, exists_still hist x -> exists_still hist y -> nth_error ps x = Some p -> nth_error ps y = Some p -> x = y) /\
    (forall p, hget h p <> None <-> hget h0 p <> None \/ exists x, exists_still hist x /\ nth_error ps x = Some p) /\
    (forall p, hget h0 p <> None -> hget h p = hget h0 p).
Proof.
  intros alloc h0 hist A O. destruct (perform_all_ok alloc h0 hist A O) as (h & ps & E & St). exists h, ps. split; [exact E|]. exact (hand_says h0 hist h ps O St).
Qed.

(** Linking a node again to the node it leads to already, with the same label, frees
    that node and keeps the edge: looking up a term that takes the edge is undefined. *)
Theorem C100_same_again_refuted : forall alloc h0 hist x c y, allocator alloc -> orderly hist ->
  exists_still hist x -> target hist x c = Some y -> y <> x ->
  exists h ps p, perform_all alloc h0 [] (hist ++ [Link x c y]) = Ok (h, ps) /\ nth_error ps x = Some p /\
    forall size w, contains h (Dawg p size) (c :: w) = UB.
Proof.
  intros alloc h0 hist x c y A O Ex Et N. destruct (perform_all_ok alloc h0 hist A O) as (h & ps & E & St).
  pose proof (target_kept _ O x c y Ex Et) as Ey. pose proof St as [Ln Nd Ij Ot].
  destruct (Nd x Ex) as (p & n & E1 & E2 & _ & E4 & _ & _ & E7). destruct (Nd y Ey) as (q & m & F1 & F2 & _ & F4 & _).
  specialize (E7 c). rewrite Et in E7. destruct E7 as (r & R1 & R2). rewrite F1 in R1. injection R1 as <-.
  assert (Npq : q <> p) by (intros ->; apply N; eapply Ij; eauto).
  eexists _, ps, p. split; [rewrite perform_app, E; cbn [rbind perform_all]; rewrite (link_step alloc h0 hist h ps x c y p q n q St); auto; [reflexivity|congruence]|].
  split; [exact E1|]. intros size w. eapply dangling; [exact E2|apply hget_hset_same| |exact F2|].
  - cbn [nedges]. rewrite edge_get_set, ceqb_refl. reflexivity.
  - rewrite hget_hset_other by exact Npq. rewrite hget_hdel, N.eqb_refl. reflexivity.
Qed.

(** Replacing a node to which another edge leads as well frees it for both. *)
Theorem C100_shared_refuted : forall alloc h0 hist x c y y2 z d, allocator alloc -> orderly hist ->
  exists_still hist x -> exists_still hist z -> exists_still hist y2 ->
  target hist x c = Some y -> target hist z d = Some y -> (z, d) <> (x, c) -> y <> x -> y <> z ->
  exists h ps p, perform_all alloc h0 [] (hist ++ [Link x c y2]) = Ok (h, ps) /\ nth_error ps z = Some p /\
    forall size w, contains h (Dawg p size) (d :: w) = UB.
Proof.
  intros alloc h0 hist x c y y2 z d A O Ex Ez Ey2 Et Ez' Nzx Ny Nyz. destruct (perform_all_ok alloc h0 hist A O) as (h & ps & E & St).
  pose proof (target_kept _ O x c y Ex Et) as Ey. pose proof St as [Ln Nd Ij Ot].
  destruct (Nd x Ex) as (p & n & E1 & E2 & _ & E4 & _ & _ & E7). destruct (Nd y Ey) as (q & m & F1 & F2 & _ & F4 & _).
  destruct (Nd z Ez) as (pz & nz & G1 & G2 & _ & G4 & _ & _ & G7). destruct (Nd y2 Ey2) as (q2 & m2 & H1 & _).
  specialize (E7 c). rewrite Et in E7. destruct E7 as (r & R1 & R2). rewrite F1 in R1. injection R1 as <-.
  specialize (G7 d). rewrite Ez' in G7. destruct G7 as (r & R1 & R3). rewrite F1 in R1. injection R1 as <-.
  assert (Npq : q <> p) by (intros ->; apply Ny; eapply Ij; eauto). assert (Nzq : q <> pz) by (intros ->; apply Nyz; eapply Ij; eauto).
  eexists _, ps, pz. split; [rewrite perform_app, E; cbn [rbind perform_all]; rewrite (link_step alloc h0 hist h ps x c y2 p q2 n q St); auto; [reflexivity|congruence]|].
  split; [exact G1|]. intros size w.
  assert (Gone : forall nn, hget (hset (hdel h q) p nn) q = None) by (intros nn; rewrite hget_hset_other by exact Npq; now rewrite hget_hdel, N.eqb_refl).
  destruct (N.eq_dec pz p) as [->|Np].
  - assert (z = x) by (eapply Ij; eauto). subst z. rewrite G4 in E4. injection E4 as ->.
    eapply dangling; [exact E2|apply hget_hset_same| |exact F2|apply Gone]. cbn [nedges]. rewrite edge_get_set.
    destruct (ceqb_spec d c) as [[-> Q]|[Q1 Q2]]; [congruence|]. rewrite Q2. exact R3.
  - eapply dangling; [exact G2| |exact R3|exact F2|apply Gone]. rewrite hget_hset_other by exact Np. rewrite hget_hdel.
    destruct (N.eqb_spec pz q); [congruence|exact G4].
Qed.

(** A node that leads to itself frees itself while that edge is replaced, which is
    undefined. *)
Theorem C100_itself_refuted : forall alloc h0 hist x c y, allocator alloc -> orderly hist ->
  exists_still hist x -> exists_still hist y -> target hist x c = Some x ->
  perform_all alloc h0 [] (hist ++ [Link x c y]) = UB.
Proof.
  intros alloc h0 hist x c y A O Ex Ey Et. destruct (perform_all_ok alloc h0 hist A O) as (h & ps & E & St). pose proof St as [Ln Nd Ij Ot].
  destruct (Nd x Ex) as (p & n & E1 & E2 & _ & E4 & _ & _ & E7). destruct (Nd y Ey) as (q & m & F1 & _).
  specialize (E7 c). rewrite Et in E7. destruct E7 as (r & R1 & R2). rewrite E1 in R1. injection R1 as <-.
  rewrite perform_app, E. cbn [rbind perform_all]. unfold perform. rewrite E1, F1. cbn [deref rbind]. unfold add_edge. rewrite (read_ok _ _ _ E2 E4). cbn [rbind].
  unfold transition, delete. rewrite R2. destruct (N.eqb_spec p null); [contradiction|]. rewrite E4. cbn [rbind]. unfold read at 1.
  rewrite hget_hdel, N.eqb_refl. destruct (N.eqb_spec p null); [contradiction|]. reflexivity.
Qed.

(** ** A case: two nodes share a third, which is marked later; a fourth is replaced *)
Definition some_calls : list node_call :=
  [Make false; Make false; Make false; Make true; Make true;
   Link 0 "a" 1; Link 0 "b" 2; Link 1 "c" 3; Link 2 "c" 3; Mark 3 false; Link 3 "d" 0; Link 2 "d" 4; Mark 3 true; Make false; Link 2 "d" 5]%char.

Ltac not_replaced :=
  let h1 := fresh "h1" in let E := fresh "E" in let T' := fresh "T'" in
  intros (h1 & ? & ? & ? & ? & E & T');
  repeat (destruct h1 as [|? h1]; cbn [app] in E; [first [discriminate E | injection E as ? ? ? ?; subst; vm_compute in T'; discriminate T'] | injection E as ? E; subst]);
  destruct h1; discriminate E.

Ltac still := split; [vm_compute; lia|not_replaced].

Lemma some_calls_orderly : orderly some_calls.
Proof.
  unfold some_calls.
  intros h1 o h2 E.
  do 14 (destruct h1 as [|? h1]; cbn [app] in E;
    [injection E as <- E; first [exact Logic.I | still | split; [still|split; [still|intros old Et; vm_compute in Et; discriminate Et]]]
    | injection E as <- E]).
  destruct h1 as [|? h1]; cbn [app] in E; [|injection E as <- E; destruct h1; discriminate E].
  injection E as <- E. split; [still|]. split; [still|]. intros old Et. vm_compute in Et. injection Et as <-. split; [lia|]. split; [lia|].
  intros z d _ T'. apply target_In in T'. cbn [app In] in T'.
  repeat (destruct T' as [T'|T']; [first [discriminate T' | injection T' as <- <-; auto]|]). destruct T'.
Qed.

(** The run, what is left, and what the dictionaries contain. *)
Example C100_case :
  (exists h ps, perform_all bump [] [] some_calls = Ok (h, ps) /\ length ps = 6 /\
     exists p0 p2, nth_error ps 0 = Some p0 /\ nth_error ps 2 = Some p2 /\
       contains h (Dawg p0 0) (lit "ac") = Ok true /\ contains h (Dawg p0 0) (lit "bcdac") = Ok true /\ contains h (Dawg p0 0) (lit "bd") = Ok false /\
       contains h (Dawg p2 7) (lit "c") = Ok true /\ contains h (Dawg p2 7) (lit "x") = Ok false /\
       forall p4, nth_error ps 4 = Some p4 -> hget h p4 = None) /\
  replaced some_calls 4 /\
  (exists h ps p, perform_all bump [] [] (some_calls ++ [Link 2 "c" 3])%char = Ok (h, ps) /\ nth_error ps 2 = Some p /\
     forall size w, contains h (Dawg p size) ("c"%char :: w) = UB) /\
  (exists h ps p, perform_all bump [] [] (some_calls ++ [Link 1 "c" 5])%char = Ok (h, ps) /\ nth_error ps 2 = Some p /\
     forall size w, contains h (Dawg p size) ("c"%char :: w) = UB) /\
  perform_all bump [] [] ([Make true; Make false; Link 0 "a" 0] ++ [Link 0 "a" 1])%char = UB.
Proof.
  split; [|split; [|split; [|split]]].
  - destruct (C100_history bump [] some_calls bump_allocator some_calls_orderly) as (h & ps & E & L & Nd & _ & Al & _). exists h, ps. split; [exact E|]. split; [exact L|].
    destruct (Nd 0) as (p0 & n0 & A1 & _ & _ & _ & _ & _ & _ & _ & _ & A2); [unfold some_calls; still|].
    destruct (Nd 2) as (p2 & n2 & B1 & _ & _ & _ & _ & _ & _ & _ & _ & B2); [unfold some_calls; still|].
    exists p0, p2. split; [exact A1|]. split; [exact B1|]. split; [rewrite A2 by (vm_compute; discriminate); reflexivity|]. split; [rewrite A2 by (vm_compute; discriminate); reflexivity|].
    split; [rewrite A2 by (vm_compute; discriminate); reflexivity|]. split; [rewrite B2 by (vm_compute; discriminate); reflexivity|].
    split; [rewrite B2 by (vm_compute; discriminate); reflexivity|]. intros p4 Q. clear -E Q. vm_compute in E. injection E as <- <-. vm_compute in Q. injection Q as <-. reflexivity.
  - exists (removelast some_calls), 2, "d"%char, 5, []. split; reflexivity.
  - apply C100_same_again_refuted; [apply bump_allocator|apply some_calls_orderly|unfold some_calls; still|reflexivity|lia].
  - apply (C100_shared_refuted bump [] some_calls 1 "c"%char 3 5 2 "c"%char); try (unfold some_calls; still); try reflexivity; try lia; [apply bump_allocator|apply some_calls_orderly|congruence].
  - apply C100_itself_refuted; [apply bump_allocator| |still|still|reflexivity].
    intros h1 o h2 E. do 3 (destruct h1 as [|? h1]; cbn [app] in E;
      [injection E as <- E; first [exact Logic.I | split; [still|split; [still|intros old Et; vm_compute in Et; discriminate Et]]] | injection E as <- E]).
    destruct h1; discriminate E.
Qed.

Print Assumptions C100_history.
Print Assumptions C100_same_again_refuted.
Print Assumptions C100_shared_refuted.
Print Assumptions C100_itself_refuted.
