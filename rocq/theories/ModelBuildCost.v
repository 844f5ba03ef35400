(** * ModelBuildCost: how often building a dictionary hashes nodes.

    The functions of ModelDawg that hash nodes, with the number of calls of
    std::hash<DawgNode>::operator() that they make.  The calls of operator== are
    counted in ModelMatchCost.  Simplification: hash codes are stored in the table
    (minimized_nodes), so that it grows without hashing; libstdc++ does that. *)
From Verif Require Import Base ModelHash ModelDawg.

(** std::hash<DawgNode>::operator() (dawg_node.cpp:92-109): the call itself and
    those for the targets. *)
Fixpoint c_node_hash (fuel : nat) (h : heap) (n : node) : res (N * nat) :=
  match fuel with
  | O => OOF
  | S fuel' =>
      do (code, calls) <-
        (fix each (es : list (char * ptr)) (code : N) (calls : nat) : res (N * nat) :=
           match es with
           | [] => Ok (code, calls)
           | (c, target) :: es' =>
               let code := murmur_key (uchar c) code in
               do t <- read h target;
               do (k, more) <- c_node_hash fuel' h t;
               each es' (murmur_key k code) (calls + more)
           end) (nedges n) DEADBEEF 0;
      Ok (murmur_key (if nfin n then 1%N else 0%N) code, S calls)
  end.

(** std::hash<Dawg>::operator() (dawg.cpp:80-91), as in ModelDawg. *)
Definition c_dawg_hash (fuel : nat) (h : heap) (d : dawg) : res (N * nat) :=
  let code := murmur_key (d_size d) DEADBEEF in
  do n <- read h (d_root d);
  do (k, calls) <- c_node_hash fuel h n;
  Ok (murmur_key k code, calls).

(** SortedDawg::minimized_node (sorted_dawg.cpp:61-67): find hashes the key once. *)
Definition c_minimized_node (fuel : nat) (h : heap) (m : list entry) (key : ptr) : res (ptr * nat) :=
  do n <- read h key;
  do (code, calls) <- c_node_hash fuel h n;
  do p <- map_find fuel h code n m;
  Ok (p, calls).

(** The assignment (sorted_dawg.cpp:83): operator[] hashes the key once. *)
Definition c_map_assign (fuel : nat) (h : heap) (m : list entry) (target : ptr) : res (list entry * nat) :=
  do n <- read h target;
  do (code, calls) <- c_node_hash fuel h n;
  do m1 <- map_replace fuel h code n target m;
  Ok (m1, calls).

(** SortedDawg::minimize (sorted_dawg.cpp:69-86). *)
Fixpoint c_minimize_loop (k fuel : nat) (h : heap) (w : work) : res (heap * work * nat) :=
  match k with
  | O => Ok (h, w, 0)
  | S k' =>
      match w_unchecked w with
      | [] => UB
      | Trans label source target :: rest =>
          do (existing, calls) <- c_minimized_node fuel h (w_minimized w) target;
          if N.eqb existing null then
            do h1 <- add_edge h source label target;
            do (m, more) <- c_map_assign fuel h1 (w_minimized w) target;
            do (h2, w2, rest_calls) <- c_minimize_loop k' fuel h1 (Work rest m (w_floating w));
            Ok (h2, w2, calls + more + rest_calls)
          else
            do h1 <- add_edge h source label existing;
            do (h2, w2, rest_calls) <- c_minimize_loop k' fuel h1 (Work rest (w_minimized w) (w_floating w));
            Ok (h2, w2, calls + rest_calls)
      end
  end.
Definition c_minimize (fuel : nat) (h : heap) (w : work) (lower_bound : nat) : res (heap * work * nat) :=
  c_minimize_loop (length (w_unchecked w) - lower_bound) fuel h w.

(** SortedDawg::add (sorted_dawg.cpp:15-55). *)
Definition c_add (fuel : nat) (alloc : heap -> ptr) (h : heap) (b : builder) (term : str)
  : res (bool * heap * builder * nat) :=
  let d := b_dawg b in
  if str_ltb term (b_prev b) then Ok (false, h, b, 0)
  else
    match term with
    | [] =>
        do h1 <- set_final h (d_root d) true;
        Ok (true, h1, Builder (Dawg (d_root d) (wadd (d_size d) 1)) term (b_work b), 0)
    | _ :: _ =>
        let i := common_prefix term (b_prev b) in
        do w <- deref (b_work b);
        do (h1, w1, calls) <- c_minimize fuel h w i;
        let source :=
          match w_unchecked w1 with
          | [] => d_root d
          | t :: _ => t_target t
          end in
        let '(h2, w2, last) := push_suffix alloc h1 w1 source (skipn i term) in
        do h3 <- set_final h2 last true;
        Ok (true, h3, Builder (Dawg (d_root d) (wadd (d_size d) 1)) term (Some w2), calls)
    end.

(** SortedDawg::finish (sorted_dawg.cpp:57-59). *)
Definition c_finish (fuel : nat) (h : heap) (b : builder) : res (heap * builder * nat) :=
  do w <- deref (b_work b);
  do (h1, w1, calls) <- c_minimize fuel h w 0;
  Ok (h1, Builder (b_dawg b) (b_prev b) (Some w1), calls).

(** A new SortedDawg, initialized, some calls of add, and finish(). *)
Fixpoint c_adds (fuel : nat) (alloc : heap -> ptr) (h : heap) (b : builder) (ts : list str)
  : res (list bool * heap * builder * nat) :=
  match ts with
  | [] => Ok ([], h, b, 0)
  | t :: ts' =>
      do (r, h1, b1, calls) <- c_add fuel alloc h b t;
      do (rs, h2, b2, more) <- c_adds fuel alloc h1 b1 ts';
      Ok (r :: rs, h2, b2, calls + more)
  end.
Definition c_finished (fuel : nat) (alloc : heap -> ptr) (h : heap) (ts : list str)
  : res (list bool * heap * builder * nat) :=
  let (h1, b1) := new_sorted_dawg alloc h in
  do (rs, h2, b2, calls) <- c_adds fuel alloc h1 (init b1) ts;
  do (h3, b3, more) <- c_finish fuel h2 b2;
  Ok (rs, h3, b3, calls + more).
