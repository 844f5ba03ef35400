(** * ModelMatchCost: how often building a dictionary compares nodes.

    The functions of ModelDawg that look nodes up in the table (minimized_nodes),
    with the number of calls of DawgNode::operator== that they make, recursive
    ones included.  Simplification, as in ModelBuildCost: hash codes are stored in
    the table, and a key is compared only with the entries that have its code;
    libstdc++ does that. *)
From Verif Require Import Base ModelDawg ModelUseCost.

(** unordered_map::find, as map_find in ModelDawg. *)
Fixpoint e_map_find (fuel : nat) (h : heap) (code : N) (key : node) (m : list entry) : res (ptr * nat) :=
  match m with
  | [] => Ok (null, 0)
  | e :: m' =>
      if N.eqb (e_hash e) code then
        do (same, log) <- c_node_eq fuel h key (e_key e);
        if same then Ok (e_ptr e, length log)
        else
          do (p, more) <- e_map_find fuel h code key m';
          Ok (p, length log + more)
      else e_map_find fuel h code key m'
  end.

(** SortedDawg::minimized_node (sorted_dawg.cpp:61-67). *)
Definition e_minimized_node (fuel : nat) (h : heap) (m : list entry) (key : ptr) : res (ptr * nat) :=
  do n <- read h key;
  do code <- node_hash fuel h n;
  e_map_find fuel h code n m.

(** The assignment (sorted_dawg.cpp:83): operator[] looks for the key again. *)
Fixpoint e_map_replace (fuel : nat) (h : heap) (code : N) (key : node) (p : ptr) (m : list entry)
  : res (list entry * nat) :=
  match m with
  | [] => Ok ([Entry code key p], 0)
  | e :: m' =>
      if N.eqb (e_hash e) code then
        do (same, log) <- c_node_eq fuel h key (e_key e);
        if same then Ok (Entry (e_hash e) (e_key e) p :: m', length log)
        else
          do (r, more) <- e_map_replace fuel h code key p m';
          Ok (e :: r, length log + more)
      else
        do (r, more) <- e_map_replace fuel h code key p m';
        Ok (e :: r, more)
  end.
Definition e_map_assign (fuel : nat) (h : heap) (m : list entry) (target : ptr) : res (list entry * nat) :=
  do n <- read h target;
  do code <- node_hash fuel h n;
  e_map_replace fuel h code n target m.

(** SortedDawg::minimize (sorted_dawg.cpp:69-86). *)
Fixpoint e_minimize_loop (k fuel : nat) (h : heap) (w : work) : res (heap * work * nat) :=
  match k with
  | O => Ok (h, w, 0)
  | S k' =>
      match w_unchecked w with
      | [] => UB
      | Trans label source target :: rest =>
          do (existing, calls) <- e_minimized_node fuel h (w_minimized w) target;
          if N.eqb existing null then
            do h1 <- add_edge h source label target;
            do (m, more) <- e_map_assign fuel h1 (w_minimized w) target;
            do (h2, w2, rest_calls) <- e_minimize_loop k' fuel h1 (Work rest m (w_floating w));
            Ok (h2, w2, calls + more + rest_calls)
          else
            do h1 <- add_edge h source label existing;
            do (h2, w2, rest_calls) <- e_minimize_loop k' fuel h1 (Work rest (w_minimized w) (w_floating w));
            Ok (h2, w2, calls + rest_calls)
      end
  end.
Definition e_minimize (fuel : nat) (h : heap) (w : work) (lower_bound : nat) : res (heap * work * nat) :=
  e_minimize_loop (length (w_unchecked w) - lower_bound) fuel h w.

(** SortedDawg::add (sorted_dawg.cpp:15-55). *)
Definition e_add (fuel : nat) (alloc : heap -> ptr) (h : heap) (b : builder) (term : str)
  : res (bool * heap * builder * nat) :=
  let d := b_dawg b in
  if str_ltb term (b_prev b) then Ok (false, h, b, 0)
  else
    match term with
    | [] =>
        do h1 <- set_final h (d_root d) true;
        Ok (true, h1, Builder (Dawg (d_root d) (wadd (d_size d) 1)) term (b_work b), 0)
    | _ :: _ =>
        let i := common_prefix term (b_prev b) in
        do w <- deref (b_work b);
        do (h1, w1, calls) <- e_minimize fuel h w i;
        let source :=
          match w_unchecked w1 with
          | [] => d_root d
          | t :: _ => t_target t
          end in
        let '(h2, w2, last) := push_suffix alloc h1 w1 source (skipn i term) in
        do h3 <- set_final h2 last true;
        Ok (true, h3, Builder (Dawg (d_root d) (wadd (d_size d) 1)) term (Some w2), calls)
    end.

(** SortedDawg::finish (sorted_dawg.cpp:57-59). *)
Definition e_finish (fuel : nat) (h : heap) (b : builder) : res (heap * builder * nat) :=
  do w <- deref (b_work b);
  do (h1, w1, calls) <- e_minimize fuel h w 0;
  Ok (h1, Builder (b_dawg b) (b_prev b) (Some w1), calls).

(** A new SortedDawg, initialized, some calls of add, and finish(). *)
Fixpoint e_adds (fuel : nat) (alloc : heap -> ptr) (h : heap) (b : builder) (ts : list str)
  : res (list bool * heap * builder * nat) :=
  match ts with
  | [] => Ok ([], h, b, 0)
  | t :: ts' =>
      do (r, h1, b1, calls) <- e_add fuel alloc h b t;
      do (rs, h2, b2, more) <- e_adds fuel alloc h1 b1 ts';
      Ok (r :: rs, h2, b2, calls + more)
  end.
Definition e_finished (fuel : nat) (alloc : heap -> ptr) (h : heap) (ts : list str)
  : res (list bool * heap * builder * nat) :=
  let (h1, b1) := new_sorted_dawg alloc h in
  do (rs, h2, b2, calls) <- e_adds fuel alloc h1 (init b1) ts;
  do (h3, b3, more) <- e_finish fuel h2 b2;
  Ok (rs, h3, b3, calls + more).
