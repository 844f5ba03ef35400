(** * Property C100, nodes that are made with a map of edges. *)
From Coq Require Import Sorting.Sorted.
From Verif Require Import Base Spec ModelDawg ModelHand ModelHandMap SpecDawg SpecHand SpecHandMap TreeProofs HeapProofs HandProofs HandMapProofs PropsDawg PropsHand.
Local Open Scope nat_scope.

(** A program may also make nodes with a map of edges.  That is the same as making the
    node and linking it to the nodes in the map, in any order: whatever [hist] says
    (see C100_history) is so after the calls. *)
Theorem C100_map : forall alloc h0 calls hist, allocator alloc -> plainly 0 calls hist -> orderly hist ->
  exists h ps, perform_any_all alloc h0 [] calls = Ok (h, ps) /\ length ps = length (made hist) /\
    (forall x, exists_still hist x -> exists p n,
       nth_error ps x = Some p /\ p <> null /\ hget h0 p = None /\ read h p = Ok n /\
       finality hist x = Some (nfin n) /\
       StronglySorted (fun a b => (schar (fst a) < schar (fst b))%Z) (nedges n) /\
       (forall c q, In (c, q) (nedges n) <-> exists y, target hist x c = Some y /\ nth_error ps y = Some q) /\
       (forall c, transition n c = match target hist x c with Some y => nth y ps null | None => null end) /\
       (forall c y, target hist x c = Some y -> exists_still hist y) /\
       forall size w, (N.of_nat (length w) <= 2147483647)%N ->
         contains h (Dawg p size) w =
         Ok (match destination hist x w with Some y => match finality hist y with Some b => b | None => false end | None => false end)) /\
    (forall x y p, exists_still hist x -> exists_still hist y -> nth_error ps x = Some p -> nth_error ps y = Some p -> x = y) /\
    (forall p, hget h p <> None <-> hget h0 p <> None \/ exists x, exists_still hist x /\ nth_error ps x = Some p) /\
    (forall p, hget h0 p <> None -> hget h p = hget h0 p).
Proof.
  intros alloc h0 calls hist A P O. destruct (any_ok alloc h0 calls hist A P O) as (h & ps & E & St). exists h, ps. split; [exact E|]. exact (hand_says h0 hist h ps O St).
Qed.
Print Assumptions C100_map.

(** ** A case: a map in which a label was assigned twice, with a node that is shared *)
Definition map_calls : list any_call :=
  [Plain (Make true); Plain (Make false); MakeWith [("b", 1); ("a", 0); ("b", 0)] false; Plain (Link 2 "c" 1); Plain (Link 1 "d" 0)]%char.

Definition map_plain : list node_call := [Make true; Make false; Make false; Link 2 "b" 0; Link 2 "a" 0; Link 2 "c" 1; Link 1 "d" 0]%char.

Lemma map_plainly : plainly 0 map_calls map_plain.
Proof.
  unfold map_calls, map_plain. apply plainly_make, plainly_make.
  apply (plainly_with 2 _ false [("b", 0); ("a", 0)]%char [Plain (Link 2 "c" 1); Plain (Link 1 "d" 0)]%char [Link 2 "c" 1; Link 1 "d" 0]%char).
  - intros c y J. cbn [In] in J. repeat (destruct J as [J|J]; [injection J as <- <-; lia|]). destruct J.
  - repeat constructor; cbn [In map fst]; intuition congruence.
  - intros c y. unfold assigned. cbn [fold_left fst snd In]. destruct (ceqb_spec "b" c) as [[<- X]|[N X]]; rewrite X.
    + split; [intros [J|[J|[]]]; congruence|intros J; injection J as <-; now left].
    + destruct (ceqb_spec "a" c) as [[<- Y]|[N' Y]]; rewrite Y; split; try (intros [J|[J|[]]]; congruence); intros J; try discriminate; injection J as <-; right; now left.
  - constructor. constructor. constructor.
Qed.

Lemma map_orderly : orderly map_plain.
Proof.
  unfold map_plain. intros h1 o h2 E.
  do 7 (destruct h1 as [|? h1]; cbn [app] in E;
    [injection E as <- E; first [exact Logic.I | still | split; [still|split; [still|intros old Et; vm_compute in Et; discriminate Et]]]
    | injection E as <- E]).
  destruct h1; discriminate E.
Qed.

Example C100_map_case : exists h ps p, perform_any_all bump [] [] map_calls = Ok (h, ps) /\ nth_error ps 2 = Some p /\
  contains h (Dawg p 3) (lit "a") = Ok true /\ contains h (Dawg p 3) (lit "b") = Ok true /\ contains h (Dawg p 3) (lit "c") = Ok false /\ contains h (Dawg p 3) (lit "cd") = Ok true.
Proof.
  destruct (C100_map bump [] map_calls map_plain bump_allocator map_plainly map_orderly) as (h & ps & E & L & Nd & _). exists h, ps.
  destruct (Nd 2) as (p & n & A1 & _ & _ & _ & _ & _ & _ & _ & _ & A2); [unfold map_plain; still|]. exists p. split; [exact E|]. split; [exact A1|].
  rewrite !A2 by (cbn; lia). repeat split.
Qed.
