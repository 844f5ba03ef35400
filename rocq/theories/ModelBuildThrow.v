(** * ModelBuildThrow: building dictionaries when memory runs out.

    The functions of SortedDawg in ModelDawg, with a budget of allocations as in
    ModelThrow, and the state in which std::bad_alloc leaves the dictionary.
    Every [new] expression, every insertion into a container, every assignment
    of a string and every call that wraps a lambda that does not fit into a
    std::function (the hash function does) counts as one allocation, even where
    the standard library would not need one.  The insertions have the strong
    guarantee: if they throw, the container is as before. *)
From Verif Require Import Base ModelHash ModelDawg ModelThrow.

(** [k] allocations in a row. *)
Fixpoint spend_many (k : nat) (b : budget) : option budget :=
  match k with
  | O => Some b
  | S k' => match spend b with Some b1 => spend_many k' b1 | None => None end
  end.

(** DawgNode::add_edge (dawg_node.cpp:41-46): the existing target is deleted
    before the edge is made. *)
Definition try_add_edge (b : budget) (h : heap) (p : ptr) (c : char) (target : ptr)
  : res (budget * heap * bool) :=
  do n <- read h p;
  do h1 <- delete h (transition n c);
  match spend b with
  | None => Ok (b, h1, false)
  | Some b1 =>
      do n1 <- read h1 p;
      Ok (b1, hset h1 p (Node (nfin n1) (edge_set (nedges n1) c target)), true)
  end.

(** SortedDawg::minimize (sorted_dawg.cpp:69-86).  The flag is false if an
    exception was thrown; the transition has been popped by then. *)
Fixpoint try_minimize_loop (k fuel : nat) (b : budget) (h : heap) (w : work)
  : res (budget * heap * work * bool) :=
  match k with
  | O => Ok (b, h, w, true)
  | S k' =>
      match w_unchecked w with
      | [] => UB
      | Trans label source target :: rest =>
          let popped := Work rest (w_minimized w) (w_floating w) in
          match spend b with
          | None => Ok (b, h, popped, false)    (* minimized_node *)
          | Some b1 =>
              do existing <- minimized_node fuel h (w_minimized w) target;
              if N.eqb existing null then
                do (b2, h1, done) <- try_add_edge b1 h source label target;
                if negb done then Ok (b2, h1, popped, false)
                else
                  match spend b2 with
                  | None => Ok (b2, h1, popped, false)    (* the entry of minimized_nodes *)
                  | Some b3 =>
                      do m <- map_assign fuel h1 (w_minimized w) target;
                      try_minimize_loop k' fuel b3 h1 (Work rest m (w_floating w))
                  end
              else
                do (b2, h1, done) <- try_add_edge b1 h source label existing;
                if negb done then Ok (b2, h1, popped, false)
                else try_minimize_loop k' fuel b2 h1 popped
          end
      end
  end.

Definition try_minimize (fuel : nat) (b : budget) (h : heap) (w : work) (lower_bound : nat)
  : res (budget * heap * work * bool) :=
  try_minimize_loop (length (w_unchecked w) - lower_bound) fuel b h w.

(** The loop that appends fresh nodes (sorted_dawg.cpp:44-49).  A node belongs
    to nobody until it is in floating_nodes. *)
Fixpoint try_push_suffix (alloc : heap -> ptr) (b : budget) (h : heap) (w : work) (source : ptr) (rest : str)
  : budget * heap * work * option ptr :=
  match rest with
  | [] => (b, h, w, Some source)
  | c :: rest' =>
      match spend b with
      | None => (b, h, w, None)    (* new DawgNode *)
      | Some b1 =>
          let (target, h1) := new_node alloc h false in
          match spend b1 with
          | None => (b1, h1, w, None)    (* floating_nodes->insert *)
          | Some b2 =>
              let floating := set_insert target (w_floating w) in
              match spend b2 with
              | None => (b2, h1, Work (w_unchecked w) (w_minimized w) floating, None)    (* emplace *)
              | Some b3 =>
                  try_push_suffix alloc b3 h1
                    (Work (Trans c source target :: w_unchecked w) (w_minimized w) floating) target rest'
              end
          end
      end
  end.

(** SortedDawg::add (sorted_dawg.cpp:15-55); the result is [None] if an exception
    was thrown.  Assigning the empty term to [_prev_term] does not allocate. *)
Definition try_add (fuel : nat) (alloc : heap -> ptr) (b : budget) (h : heap) (bd : builder) (term : str)
  : res (budget * heap * builder * option bool) :=
  let d := b_dawg bd in
  if str_ltb term (b_prev bd) then Ok (b, h, bd, Some false)
  else
    match term with
    | [] =>
        do h1 <- set_final h (d_root d) true;
        Ok (b, h1, Builder (Dawg (d_root d) (wadd (d_size d) 1)) term (b_work bd), Some true)
    | _ :: _ =>
        let i := common_prefix term (b_prev bd) in
        do w <- deref (b_work bd);
        do (b1, h1, w1, done) <- try_minimize fuel b h w i;
        if negb done then Ok (b1, h1, Builder d (b_prev bd) (Some w1), None)
        else
          let source := match w_unchecked w1 with [] => d_root d | t :: _ => t_target t end in
          let '(b2, h2, w2, r) := try_push_suffix alloc b1 h1 w1 source (skipn i term) in
          match r with
          | None => Ok (b2, h2, Builder d (b_prev bd) (Some w2), None)
          | Some last =>
              do h3 <- set_final h2 last true;
              match spend b2 with
              | None => Ok (b2, h3, Builder d (b_prev bd) (Some w2), None)    (* _prev_term = term *)
              | Some b3 =>
                  Ok (b3, h3, Builder (Dawg (d_root d) (wadd (d_size d) 1)) term (Some w2), Some true)
              end
          end
    end.

(** SortedDawg::finish (sorted_dawg.cpp:57-59). *)
Definition try_finish (fuel : nat) (b : budget) (h : heap) (bd : builder)
  : res (budget * heap * builder * bool) :=
  do w <- deref (b_work bd);
  do (b1, h1, w1, done) <- try_minimize fuel b h w 0;
  Ok (b1, h1, Builder (b_dawg bd) (b_prev bd) (Some w1), done).

(** Dawg::all_nodes (dawg.cpp:28-41); [None] if an exception was thrown.  The
    std::function and the insertion of a node count as one. *)
Fixpoint try_all_nodes_loop (fuel : nat) (b : budget) (h : heap) (pending nodes : list ptr)
  : res (budget * option (list ptr)) :=
  match fuel with
  | O => OOF
  | S fuel' =>
      match pending with
      | [] => Ok (b, Some nodes)
      | p :: pending' =>
          match spend b with
          | None => Ok (b, None)
          | Some b1 =>
              do n <- read h p;
              match spend_many (length (nedges n)) b1 with
              | None => Ok (Some O, None)
              | Some b2 =>
                  try_all_nodes_loop fuel' b2 h (pending' ++ map snd (nedges n)) (set_insert p nodes)
              end
          end
      end
  end.

Definition try_all_nodes (fuel : nat) (b : budget) (h : heap) (d : dawg) : res (budget * option (list ptr)) :=
  match spend b with
  | None => Ok (b, None)    (* pending.push(_root) *)
  | Some b1 => try_all_nodes_loop fuel b1 h [d_root d] []
  end.

(** SortedDawg::clean_up (sorted_dawg.cpp:98-121).  The first two containers are
    deleted before anything can throw.  Simplification: they are then empty here
    instead of null, so that only clean_up and the destructor are modelled
    faithfully after an exception. *)
Definition try_clean_up (fuel : nat) (b : budget) (h : heap) (bd : builder)
  : res (budget * heap * builder * bool) :=
  match b_work bd with
  | None => Ok (b, h, bd, true)
  | Some w =>
      do (b1, r) <- try_all_nodes fuel b h (b_dawg bd);
      match r with
      | None => Ok (b1, h, Builder (b_dawg bd) (b_prev bd) (Some (Work [] [] (w_floating w))), false)
      | Some nodes =>
          do h1 <- delete_all h (filter (fun p => negb (set_mem p nodes)) (w_floating w));
          Ok (b1, h1, Builder (b_dawg bd) (b_prev bd) None, true)
      end
  end.

(** [delete dawg] (sorted_dawg.cpp:11-13, dawg.cpp:22-26).  Destructors do not
    let exceptions out: std::terminate ends the program, here [None]. *)
Definition try_destroy (fuel : nat) (b : budget) (h : heap) (bd : builder) : res (budget * option heap) :=
  do (b1, h1, bd1, done) <- try_clean_up fuel b h bd;
  if negb done then Ok (b1, None)
  else
    do (b2, r) <- try_all_nodes fuel b1 h1 (b_dawg bd1);
    match r with
    | None => Ok (b2, None)
    | Some nodes => do h2 <- delete_all h1 nodes; Ok (b2, Some h2)
    end.

(** What a call of sorted_dawg comes to: a dictionary, nullptr, an exception, or
    the end of the program. *)
Inductive ending := Made (bd : builder) | Refused | Thrown | Terminated.

(** The loop of sorted_dawg (sorted_dawg.cpp:128-135). *)
Fixpoint try_add_all (fuel : nat) (alloc : heap -> ptr) (b : budget) (h : heap) (bd : builder) (terms : list str)
  : res (budget * heap * ending) :=
  match terms with
  | [] => Ok (b, h, Made bd)
  | term :: terms' =>
      do (b1, h1, bd1, r) <- try_add fuel alloc b h bd term;
      match r with
      | None => Ok (b1, h1, Thrown)
      | Some true => try_add_all fuel alloc b1 h1 bd1 terms'
      | Some false =>
          do (b2, r) <- try_destroy fuel b1 h1 bd1;
          Ok (match r with Some h2 => (b2, h2, Refused) | None => (b2, h1, Terminated) end)
      end
  end.

(** sorted_dawg(iter, end) (sorted_dawg.cpp:123-140): two allocations for the
    object and its root, three for the containers.  Nothing deletes the
    dictionary when an exception passes. *)
Definition try_sorted_dawg (fuel : nat) (alloc : heap -> ptr) (b : budget) (h : heap) (terms : list str)
  : res (budget * heap * ending) :=
  match spend_many 2 b with
  | None => Ok (Some O, h, Thrown)
  | Some b0 =>
      let (h0, bd0) := new_sorted_dawg alloc h in
      match spend_many 3 b0 with
      | None => Ok (Some O, h0, Thrown)
      | Some b1 =>
          do (b2, h1, r) <- try_add_all fuel alloc b1 h0 (init bd0) terms;
          match r with
          | Made bd1 =>
              do (b3, h2, bd2, done) <- try_finish fuel b2 h1 bd1;
              if negb done then Ok (b3, h2, Thrown)
              else
                do (b4, h3, bd3, done) <- try_clean_up fuel b3 h2 bd2;
                Ok (b4, h3, if (done : bool) then Made bd3 else Thrown)
          | _ => Ok (b2, h1, r)
          end
      end
  end.
