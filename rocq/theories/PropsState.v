(** * Properties C46, C49: states in memory. *)
From Coq Require Import Permutation Sorted.
From Verif Require Import Base Spec ModelTransducer ModelDawg ModelState SpecState SpecTransducer.
From Verif Require Import PointerProofs WalkProofs TransProofs StateProofs ReadProofs PropsTransducer.
Local Open Scope nat_scope.

(** The memory that remains is exactly what was there before. *)
Lemma consists_of_nothing m base : consists_of m base [] -> forall p, mget m p = mget base p.
Proof. intros (_ & _ & _ & F & _) p. apply F. intros []. Qed.

(** For the examples: the addresses in use, and an allocator that returns one more
    than the largest of them. *)
Definition in_use {A : Type} (m : mem A) : list ptr :=
  filter (fun p => match mget m p with Some _ => true | None => false end) (nodup N.eq_dec (map fst m)).
Definition bump {A : Type} (m : mem A) : ptr := N.succ (fold_right N.max 0%N (in_use m)).

Lemma in_use_spec {A : Type} (m : mem A) p : In p (in_use m) <-> mget m p <> None.
Proof.
  unfold in_use. rewrite filter_In, nodup_In. destruct (mget m p) as [x|] eqn:E.
  - split; [intros _; discriminate|]. intros _. split; [|reflexivity]. revert E. unfold mget.
    induction m as [|[q c] m IH]; cbn; [discriminate|]. destruct (N.eqb_spec p q); auto.
  - split; [intros [_ ?]; discriminate|]. intros X. now destruct X.
Qed.

Lemma mallocator_bump {A : Type} : mallocator (@bump A).
Proof.
  intros m. unfold bump. split; [unfold null; lia|]. destruct (mget m _) eqn:E; [exfalso|reflexivity].
  assert (I : In (N.succ (fold_right N.max 0 (in_use m)))%N (in_use m)).
  { apply in_use_spec. rewrite E. discriminate. }
  revert I. generalize (in_use m) as l.
  assert (G : forall l x, In x l -> (x <= fold_right N.max 0 l)%N).
  { induction l as [|y l IH]; cbn; intros x []; [subst; lia|]. specialize (IH x H). lia. }
  intros l I. apply G in I. lia.
Qed.
Definition left_first (_ : positions) (_ : ptr) : bool := true.

Lemma read_app alg x n : forall v w st st', read alg x n st v = Ok (Some st') ->
  read alg x n st (v ++ w) = read alg x n st' w.
Proof.
  induction v as [|c v IH]; intros w st st' H; [cbn in H; injection H as <-; reflexivity|].
  cbn [app read] in *. destruct st as [|p st]; [discriminate|].
  destruct (characteristic_vector c x _ _) as [cv| |]; try discriminate. cbn [rbind] in *.
  destruct (state_transition _ _ _ _ _) as [[st1|]| |]; try discriminate. cbn [rbind] in *.
  now apply IH.
Qed.

(** ** C46: the position list behaves like a sequence *)

(** Making a State of some new positions: the state holds them in that order. *)
Theorem C46_construct : forall alloc base xs fuel, mallocator alloc -> length xs < fuel ->
  exists m ps m' head l,
    new_positions alloc base xs = (m, ps) /\ state_of fuel m ps = Ok (m', head) /\
    has_state m' base head l /\ map fst l = ps /\ map snd l = xs.
Proof.
  intros alloc base xs fuel HA Hf.
  assert (H0 : consists_of base base []).
  { split; [intros ? ? ? []|]. split; [constructor|]. split; [intros ? []|split; reflexivity]. }
  destruct (new_positions_ok xs HA H0) as (m & ps & E & M & H).
  apply (world_add_empty null) in H.
  destruct (@state_of_loop_ok base ps m null [] [] fuel H) as (m' & E' & H').
  { rewrite <- M, map_length in Hf. cbn. lia. }
  exists m, (map fst ps), m', (enter ps null), ps. split; [exact E|]. split; [exact E'|].
  split; [exact H'|]. split; [reflexivity|exact M].
Qed.
Print Assumptions C46_construct.

(** Any sequence of add, head, insert_after, remove and sort has the effect on
    the state that the corresponding list operations have on the sequence; no
    other memory is touched, and no position is lost: memory is what was there
    before and the positions of the state. *)
Theorem C46_operations : forall alloc order base m head l ops l' fuel, mallocator alloc ->
  has_state m base head l -> effects ops (map snd l) = Some l' ->
  length l + length ops + 2 < fuel ->
  exists m' head' k, performs fuel alloc order ops m head = Ok (m', head') /\
    has_state m' base head' k /\ map snd k = l'.
Proof. intros. eapply performs_ok; eauto. Qed.
Print Assumptions C46_operations.

(** Any walk over the state with begin, ++, insert and remove (where insert is
    called on a current position) does to the sequence what it should, and the
    iterator refers to the right position. *)
Theorem C46_walk : forall alloc base m head l ss before cur after fuel, mallocator alloc ->
  has_state m base head l -> walk ss (begin (map snd l)) = Some (before, cur, after) -> 2 < fuel ->
  exists it m' head' it' k, state_begin m head = Ok it /\
    moves fuel alloc ss m head it = Ok (m', head', it') /\
    has_state m' base head' k /\ map snd k = sequence (before, cur, after) /\
    current m' it' = cur /\
    (iterator_eq it' at_end = true <-> cur = None /\ after = []).
Proof.
  intros alloc base m head l ss before cur after fuel HA H HW Hf.
  destruct (stands_begin (world_seg H)) as (it & E & St). exists it.
  assert (El : [] ++ here (hd_error l) ++ tl l = l) by (destruct l; reflexivity).
  assert (Eb : plain [] (hd_error l) (tl l) = begin (map snd l)) by (destruct l; reflexivity).
  rewrite <- Eb in HW.
  destruct (@moves_ok alloc base fuel ss HA Hf m head it [] (hd_error l) (tl l) (before, cur, after))
    as (m' & h' & it' & k1 & cur' & k2 & E' & H' & Hh' & P').
  - unfold has_state. rewrite El. exact H.
  - unfold holds. rewrite St. destruct l; reflexivity.
  - exact HW.
  - exists m', h', it', (k1 ++ here cur' ++ k2). split; [exact E|]. split; [exact E'|]. split; [exact H'|].
    split; [now rewrite <- P', sequence_plain|].
    rewrite (current_ok H' Hh'). inversion P'; subst. split; [reflexivity|].
    unfold iterator_eq, holds in *. subst it'. cbn [si_curr si_next at_end].
    pose proof (world_seg H') as Sg.
    destruct cur' as [[a x]|].
    + cbn [head_of fst here app] in *. destruct (segment_get Sg) as [Ha _].
      destruct (N.eqb_spec a null); [contradiction|]. cbn. split; [discriminate|]. intros [? _]; discriminate.
    + cbn [head_of here app option_map] in *. rewrite N.eqb_refl. destruct k2 as [|[b y] k2].
      * cbn. split; auto.
      * cbn [first_of fst map]. destruct (segment_get Sg) as [Ha _].
        destruct (N.eqb_spec b null); [contradiction|]. cbn. split; [discriminate|]. intros [_ ?]; discriminate.
Qed.
Print Assumptions C46_walk.

(** Destroying the state frees all its positions, once, and nothing else. *)
Theorem C46_destroy : forall base m head l fuel, has_state m base head l -> length l < fuel ->
  exists m', destroy_state fuel m head = Ok m' /\ forall p, mget m' p = mget base p.
Proof.
  intros base m head l fuel H Hf. destruct (world_delete H Hf) as (m' & E & H').
  exists m'. split; [exact E|]. now apply consists_of_nothing.
Qed.
Print Assumptions C46_destroy.

Definition three := Eval vm_compute in
  match state_of 9 (fst (new_positions bump [(7%N, Live (Cell (Pos 9 9 true) null))]
                           [Pos 2 0 false; Pos 0 1 false; Pos 1 1 true]))
                 (snd (new_positions bump [(7%N, Live (Cell (Pos 9 9 true) null))]
                           [Pos 2 0 false; Pos 0 1 false; Pos 1 1 true])) with
  | Ok x => x | _ => ([], null) end.

(** A state with three positions beside some other position in memory. *)
Example C46_case :
  has_state (fst three) [(7%N, Live (Cell (Pos 9 9 true) null))] (snd three)
    [(8%N, Pos 2 0 false); (9%N, Pos 0 1 false); (10%N, Pos 1 1 true)] /\
  effects [Add (Pos 3 3 false); Remove 1; InsertAfter 0 (Pos 0 0 false); Head (Pos 5 5 false); Sort STANDARD]
    [Pos 2 0 false; Pos 0 1 false; Pos 1 1 true] =
    Some [Pos 0 0 false; Pos 1 1 true; Pos 2 0 false; Pos 3 3 false; Pos 5 5 false] /\
  walk [Next; Erase; Next; Insert (Pos 4 4 false); Next] (begin [Pos 2 0 false; Pos 0 1 false; Pos 1 1 true]) =
    Some ([Pos 2 0 false; Pos 1 1 true], Some (Pos 4 4 false), []).
Proof.
  split; [|split; vm_compute; reflexivity].
  split; [|split; [|split; [|split]]].
  - intros p l q [E|[]]. inversion E; subst. cbn -[null]. repeat (split; [reflexivity || discriminate|]).
    eexists. split; [reflexivity|]. repeat (split; [reflexivity || discriminate|]).
    eexists. split; [reflexivity|]. repeat (split; [reflexivity || discriminate|]).
    eexists. split; reflexivity.
  - cbn. repeat constructor; cbn; intuition discriminate.
  - intros a Ha. cbn in Ha. intuition (subst; reflexivity).
  - intros a Ha. cbn in Ha. unfold mget. cbn [three fst mlook].
    repeat match goal with
    | |- context [(a =? ?n)%N] => destruct (N.eqb_spec a n); [subst; cbn; try reflexivity; exfalso; apply Ha; auto|]
    end. reflexivity.
  - intros a. unfold mconst. cbn [three fst mlook].
    repeat match goal with |- context [(a =? ?n)%N] => destruct (a =? n)%N end; reflexivity.
Qed.

(** "insert: inserts a new Position after the current one" (state_iterator.h).
    Where there is no current position, namely after remove and at the end of
    the list, the position goes to the front of the list instead. *)
Theorem C46_insert_front : forall alloc base m head l it x fuel, mallocator alloc ->
  has_state m base head l -> si_curr it = null ->
  exists m1 p m' it', new_position alloc m x = (p, m1) /\
    iterator_insert fuel m1 head it p = Ok (m', p, it') /\
    has_state m' base p ((p, x) :: l).
Proof.
  intros alloc base m head l it x fuel HA H Hc.
  destruct (world_new x HA H) as (a & m1 & E1 & _ & _ & H1).
  apply (world_perm (perm_swap _ _ _)) in H1.
  destruct (@iterator_insert_front m1 base head l a a x null [] it fuel H1 Hc) as (m2 & E2 & H2).
  exists m1, a, m2, (Iterator null a (si_prev it)). split; [exact E1|]. split; [exact E2|exact H2].
Qed.
Print Assumptions C46_insert_front.

(** So the walk over such a list does not see the positions in their order: the
    next one is the new position at the front, followed by all the positions
    already seen, and to remove it is undefined behaviour, a null dereference. *)
Theorem C46_insert_refuted :
  exists m head it m1 head1 it1,
    state_begin m head = Ok it /\
    (exists l, segment m head l null /\ map snd l = [Pos 2 0 false; Pos 0 1 false; Pos 1 1 true]) /\
    moves 9 bump [Next; Erase; Insert (Pos 4 4 false); Next] m head it = Ok (m1, head1, it1) /\
    (exists l, segment m1 head1 l null /\ map snd l = [Pos 4 4 false; Pos 2 0 false; Pos 1 1 true]) /\
    current m1 it1 = Some (Pos 4 4 false) /\
    moves 9 bump [Next; Next; Next; Insert (Pos 4 4 false); Next; Erase] m head it = UB.
Proof.
  exists (fst three), (snd three). eexists _, _, _, _.
  split; [vm_compute; reflexivity|]. split.
  { exists [(8%N, Pos 2 0 false); (9%N, Pos 0 1 false); (10%N, Pos 1 1 true)]. split; [|reflexivity].
    cbn -[null]. repeat (split; [reflexivity || discriminate|]).
    eexists. split; [reflexivity|]. repeat (split; [reflexivity || discriminate|]).
    eexists. split; [reflexivity|]. repeat (split; [reflexivity || discriminate|]).
    eexists. split; reflexivity. }
  split; [vm_compute; reflexivity|]. split.
  { eexists [(_, Pos 4 4 false); (8%N, Pos 2 0 false); (10%N, Pos 1 1 true)]. split; [|reflexivity].
    cbn -[null]. repeat (split; [reflexivity || discriminate|]).
    eexists. split; [reflexivity|]. repeat (split; [reflexivity || discriminate|]).
    eexists. split; [reflexivity|]. repeat (split; [reflexivity || discriminate|]).
    eexists. split; reflexivity. }
  split; vm_compute; reflexivity.
Qed.
Print Assumptions C46_insert_refuted.

(** ** C49: StateTransition leaks nothing and leaves the current state alone *)

(** Reading a label from a state that can be reached from the initial state by
    reading a word [v]: the call terminates without undefined behaviour.  If it
    returns nullptr, memory is as before.  If it returns a state, memory is as
    before, so in particular the old state is, except for the new state and its
    positions, which were free before.  The state is the one that [read] has on
    sequences of positions. *)
Theorem C49_transition : forall palloc salloc order alg x n v st c base ss curr head l fuel,
  mallocator palloc -> mallocator salloc ->
  manageable x n -> (n <= SIZE_MAX)%N -> (N.of_nat (length v) + 1 < 2 ^ 62)%N ->
  read alg x n [Pos 0 0 false] v = Ok (Some st) ->
  curr <> null -> mget ss curr = Some head -> segment base head l null -> map snd l = st ->
  5 * length l + 2 < fuel ->
  exists i cv m' ss' next r,
    option_map ti (hd_error st) = Some i /\
    characteristic_vector c x (query_k (query_a n) (N.of_nat (length x)) i) i = Ok cv /\
    state_transition_pointers fuel palloc salloc order alg n (N.of_nat (length x)) base ss curr cv =
      Ok (m', ss', next) /\
    read alg x n [Pos 0 0 false] (v ++ [c]) = Ok r /\
    match r with
    | None => next = null /\ (forall p, mget m' p = mget base p) /\ (forall p, mget ss' p = mget ss p)
    | Some st' => exists head' l',
        next <> null /\ mget ss next = None /\ mget ss' next = Some head' /\
        (forall p, p <> next -> mget ss' p = mget ss p) /\
        has_state m' base head' l' /\ map snd l' = st'
    end.
Proof.
  intros palloc salloc order alg x n v st c base ss curr head l fuel HP HS Hx Hn Hv Hr Hc Hh Sg M Hf.
  destruct (read_initial alg x n (v ++ [c]) Hx Hn) as (r & Er & _).
  { unfold small_depth. rewrite app_length. cbn. lia. }
  change initial_state with [Pos 0 0 false] in Er.
  pose proof Er as Er'. rewrite (read_app _ _ _ v [c] _ _ Hr) in Er'. cbn [read] in Er'.
  destruct st as [|p st]; [discriminate|].
  destruct (characteristic_vector c x (query_k (query_a n) (N.of_nat (length x)) (ti p)) (ti p))
    as [cv| |] eqn:Ecv; try discriminate. cbn [rbind] in Er'.
  destruct (state_transition alg n (N.of_nat (length x)) (p :: st) cv) as [o| |] eqn:Et;
    try discriminate. cbn [rbind] in Er'.
  rewrite <- M in Et.
  pose proof (@state_transition_pointers_ok palloc salloc order alg n (N.of_nat (length x)) base ss curr
                head l cv o fuel HP HS Hc Hh Sg Et Hf) as G.
  exists (ti p), cv. destruct o as [st'|].
  - destruct G as (m' & ss' & s & h' & l' & E & H & M' & G1 & G2 & G3 & G4 & _).
    exists m', ss', s, r. split; [reflexivity|]. split; [exact Ecv|]. split; [exact E|].
    split; [exact Er|]. cbn in Er'. injection Er' as <-.
    exists h', l'. repeat (split; [assumption|]). assumption.
  - destruct G as (m' & ss' & E & H & G & _).
    exists m', ss', null, r. split; [reflexivity|]. split; [exact Ecv|]. split; [exact E|].
    split; [exact Er|]. injection Er' as <-.
    split; [reflexivity|]. split; [now apply consists_of_nothing|exact G].
Qed.
Print Assumptions C49_transition.

Definition initial := Eval vm_compute in fst (new_positions bump [] [Pos 0 0 false]).
Definition after_b := Eval vm_compute in
  state_transition_pointers 9 bump bump left_first TRANSPOSITION 1 3 initial [(1%N, Live 1%N)] 1%N
    [false; true; false].

(** Reading "b" with the query string "abc": a state with four positions at 2-5,
    beside the initial state. *)
Example C49_case :
  read TRANSPOSITION (lit "abc") 1 [Pos 0 0 false] [] = Ok (Some [Pos 0 0 false]) /\
  segment initial 1%N [(1%N, Pos 0 0 false)] null /\
  (exists m ss, after_b = Ok (m, ss, 2%N) /\ in_use ss = [2; 1]%N /\ mget ss 2%N = Some 2%N /\
     segment m 2%N [(2%N, Pos 0 1 false); (3%N, Pos 0 1 true); (4%N, Pos 1 1 false); (5%N, Pos 2 1 false)] null) /\
  match state_transition_pointers 9 bump bump left_first STANDARD 0 3 initial [(1%N, Live 1%N)] 1%N [false] with
  | Ok (m, ss, next) => in_use m = [1%N] /\ in_use ss = [1%N] /\ next = null
  | _ => False
  end.
Proof.
  split; [reflexivity|]. split.
  { cbn -[null]. repeat (split; [reflexivity || discriminate|]). eexists. split; reflexivity. }
  split; [|vm_compute; auto].
  eexists _, _. split; [reflexivity|]. split; [reflexivity|]. split; [reflexivity|]. cbn -[null].
  do 4 (repeat (split; [reflexivity || discriminate|]); eexists; split; [reflexivity|]). reflexivity.
Qed.

(** distance(state, length) on the state in memory is distance on the sequence. *)
Theorem C49_distance : forall alg m head l len fuel, segment m head l null -> length l < fuel ->
  distance_pointers fuel alg m head len = Ok (distance alg (map snd l) len).
Proof. intros. now apply distance_pointers_ok. Qed.
Print Assumptions C49_distance.
