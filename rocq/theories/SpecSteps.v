(** * SpecSteps: vocabulary for statements about threads that use dictionaries. *)
From Verif Require Import Base Spec ModelHash ModelTransducer ModelDawg ModelQuery ModelSerial SpecDawg SpecQuery ModelSteps.

(** ** What the commands of a thread should do *)

(** A dictionary of the thread: still open, with the terms accepted so far; ready
    for reading; or gone. *)
Inductive stage := Growing (kept : list str) | Ready (terms : list str) | Gone.

Definition stage_put (i : nat) (s : stage) (ss : list stage) : list stage := firstn i ss ++ s :: skipn (S i) ss.

(** The terms of a dictionary that may be read. *)
Definition terms_of (shared : list (list str)) (ss : list stage) (d : which) : option (list str) :=
  match d with
  | Own i => match nth_error ss i with Some (Ready terms) => Some terms | _ => None end
  | Shared j => nth_error shared j
  end.

(** What iterating a dictionary lists: the distinct terms, shorter ones first and
    those of the same length in order; the last one again for every repetition
    (see C21). *)
Definition listing (terms out : list str) : Prop :=
  exists distinct, NoDup distinct /\ (forall w, In w distinct <-> In w terms) /\ sorted_by shortlex_lt distinct /\
    out = distinct ++ repeat (last distinct []) (length terms - length distinct).

(** The hash code that the dictionary of these terms has when it is built by a
    program with a single thread. *)
Definition hash_alone (terms : list str) (code : N) : Prop :=
  forall alloc h0 h b, allocator alloc -> runs_to (fun fuel => sorted_dawg fuel alloc h0 terms) (h, Some b) ->
  runs_to (fun fuel => dawg_hash fuel h (b_dawg b)) code.

(** One command: the dictionaries before and after it, and what it returns. *)
Inductive does (shared : list (list str)) : command -> list stage -> list stage -> answer -> Prop :=
| does_build : forall terms ss, ascending terms ->
    does shared (Build terms) ss (ss ++ [Ready terms]) (Answered true)
| does_refuse : forall terms ss, ~ ascending terms ->
    does shared (Build terms) ss (ss ++ [Gone]) (Answered false)
| does_begin : forall ss, does shared Begin ss (ss ++ [Growing []]) Nothing
| does_add : forall i term ss kept, nth_error ss i = Some (Growing kept) -> ~ lex_lt term (last kept []) ->
    does shared (Add i term) ss (stage_put i (Growing (kept ++ [term])) ss) (Answered true)
| does_reject : forall i term ss kept, nth_error ss i = Some (Growing kept) -> lex_lt term (last kept []) ->
    does shared (Add i term) ss ss (Answered false)
| does_finish : forall i ss kept, nth_error ss i = Some (Growing kept) ->
    does shared (Finish i) ss (stage_put i (Ready kept) ss) Nothing
| does_delete : forall i ss s, nth_error ss i = Some s ->
    does shared (Delete i) ss (stage_put i Gone ss) Nothing
| does_contains : forall d term ss terms b, terms_of shared ss d = Some terms ->
    (N.of_nat (length term) <= 2147483647)%N -> (b = true <-> In term terms) ->
    does shared (Contains d term) ss ss (Answered b)
| does_list : forall d ss terms out, terms_of shared ss d = Some terms ->
    (N.of_nat (length terms) < 2 ^ 64)%N -> listing terms out ->
    does shared (List d) ss ss (Listed out)
| does_equal : forall d e ss terms terms' b, terms_of shared ss d = Some terms -> terms_of shared ss e = Some terms' ->
    (b = true <-> (forall w, In w terms <-> In w terms') /\
       (N.of_nat (length terms) mod 2 ^ 64 = N.of_nat (length terms') mod 2 ^ 64)%N) ->
    does shared (Equal d e) ss ss (Answered b)
| does_hash : forall d ss terms code, terms_of shared ss d = Some terms -> hash_alone terms code ->
    does shared (Hash d) ss ss (Hashed code)
| does_search : forall alg d q n ss terms out, terms_of shared ss d = Some terms -> within_limits terms q n ->
    sorted_by shortlex_lt (map fst out) ->
    (forall w k, In (w, k) out <-> In w terms /\ edit_distance alg q w (N.to_nat k) /\ (k <= n)%N) ->
    does shared (Search alg d q n) ss ss (Found out)
| does_copy : forall d ss terms, terms_of shared ss d = Some terms ->
    does shared (Copy d) ss (ss ++ [Ready terms]) Nothing.

Inductive all_do (shared : list (list str)) : list command -> list stage -> list stage -> list answer -> Prop :=
| all_none : forall ss, all_do shared [] ss ss []
| all_more : forall c cs ss ss1 ss2 a out, does shared c ss ss1 a -> all_do shared cs ss1 ss2 out ->
    all_do shared (c :: cs) ss ss2 (a :: out).

(** A thread whose commands make sense: it adds only to dictionaries that it has
    begun and not finished, reads only dictionaries that are ready, and so on. *)
Definition sensible (shared : list (list str)) (cs : list command) : Prop :=
  exists ss out, all_do shared cs [] ss out.

(** A thread that has deleted all its dictionaries. *)
Definition tidy (shared : list (list str)) (cs : list command) : Prop :=
  exists ss out, all_do shared cs [] ss out /\ forall s, In s ss -> s = Gone.

(** ** A single thread *)

(** The commands as calls of the functions of ModelDawg. *)
Definition on_builder {A} (ss : slots) (i : nat) (f : builder -> res A) : res A :=
  match slot_get i ss with Some b => f b | None => UB end.
Definition on_dawg {A} (shared : list dawg) (ss : slots) (d : which) (f : dawg -> res A) : res A :=
  match dawg_of shared ss d with Some x => f x | None => UB end.

Definition run_command (fuel : nat) (alloc : heap -> ptr) (shared : list dawg) (c : command) (h : heap) (ss : slots)
  : res (heap * (slots * answer)) :=
  match c with
  | Build terms =>
      do (h1, r) <- sorted_dawg fuel alloc h terms;
      Ok (h1, (ss ++ [r], Answered (match r with Some _ => true | None => false end)))
  | Begin => let (h1, b) := new_sorted_dawg alloc h in Ok (h1, (ss ++ [Some (init b)], Nothing))
  | Add i term =>
      on_builder ss i (fun b =>
        do (r, h1, b1) <- add fuel alloc h b term; Ok (h1, (slot_put i (Some b1) ss, Answered r)))
  | Finish i =>
      on_builder ss i (fun b => do (h1, b1) <- finish fuel h b; Ok (h1, (slot_put i (Some b1) ss, Nothing)))
  | Delete i =>
      match slot_get i ss with
      | Some b => do h1 <- destroy fuel h b; Ok (h1, (slot_put i None ss, Nothing))
      | None => Ok (h, (ss, Nothing))
      end
  | Contains d term => on_dawg shared ss d (fun x => do r <- contains h x term; Ok (h, (ss, Answered r)))
  | List d => on_dawg shared ss d (fun x => do out <- iterate fuel h x; Ok (h, (ss, Listed out)))
  | Equal d e =>
      on_dawg shared ss d (fun x => on_dawg shared ss e (fun y =>
        do r <- dawg_eq fuel h x y; Ok (h, (ss, Answered r))))
  | Hash d => on_dawg shared ss d (fun x => do k <- dawg_hash fuel h x; Ok (h, (ss, Hashed k)))
  | Search alg d q n =>
      on_dawg shared ss d (fun x =>
        do out <- query_all as_candidate fuel h (new_transducer alg (d_root x)) q n; Ok (h, (ss, Found out)))
  | Copy d =>
      on_dawg shared ss d (fun x =>
        do m <- to_protobuf fuel h x;
        do (h1, b) <- from_protobuf alloc h m;
        Ok (h1, (ss ++ [Some b], Nothing)))
  end.

Fixpoint run_commands (fuel : nat) (alloc : heap -> ptr) (shared : list dawg) (cs : list command) (h : heap) (ss : slots)
  : res (heap * (slots * list answer)) :=
  match cs with
  | [] => Ok (h, (ss, []))
  | c :: cs' =>
      do (h1, (ss1, a)) <- run_command fuel alloc shared c h ss;
      do (h2, (ss2, out)) <- run_commands fuel alloc shared cs' h1 ss1;
      Ok (h2, (ss2, a :: out))
  end.

(** ** Data races *)

(** The next access of a program is to the node at this address; it overwrites
    or deletes the node. *)
Inductive accesses {A : Type} : action A -> ptr -> Prop :=
| accesses_look : forall p k, accesses (Look p k) p
| accesses_store : forall p n k, accesses (Store p n k) p
| accesses_drop : forall p k, accesses (Drop p k) p.
Inductive modifies {A : Type} : action A -> ptr -> Prop :=
| modifies_store : forall p n k, modifies (Store p n k) p
| modifies_drop : forall p k, modifies (Drop p k) p.

(** Two threads are about to access the same node, one of them to modify it. *)
Definition data_race {A : Type} (ts : list (action A)) : Prop :=
  exists i j p q a, i <> j /\ nth_error ts i = Some p /\ nth_error ts j = Some q /\ modifies p a /\ accesses q a.
