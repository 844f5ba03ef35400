(** * ModelBuckets: the hash table of SortedDawg.

    ModelDawg takes minimized_nodes, a std::unordered_map<DawgNode, DawgNode*>
    (sorted_dawg.h:94), for a list that is searched from its beginning.  Here it
    is an array of buckets; a node is looked for only in the bucket that its hash
    code leads to.

    The standard leaves open whether the hash code of a key is stored with the
    entry ([cached]; libstdc++ does, other implementations need not) and when the
    table grows, and to how many buckets ([grow]).  With stored codes only entries
    with the right code are compared, and the table grows without hashing.
    Without, every entry of the bucket is compared, and when the table grows all
    keys are hashed again, which reads the nodes that they lead to now. *)
From Verif Require Import Base ModelHash ModelDawg.

Definition table := list (list entry).

(** A new unordered_map. *)
Definition new_table : table := [[]].

Definition slot_of (t : table) (code : N) : nat := N.to_nat (code mod N.of_nat (length t)).

Section Table.
  Variable cached : bool.
  Variable grow : table -> option nat.

  (** The entry of a key within a bucket; nullptr if there is none. *)
  Fixpoint bucket_find (fuel : nat) (h : heap) (code : N) (key : node) (b : list entry) : res ptr :=
    match b with
    | [] => Ok null
    | e :: b' =>
        if cached && negb (N.eqb (e_hash e) code) then bucket_find fuel h code key b'
        else
          do same <- node_eq fuel h key (e_key e);
          if same then Ok (e_ptr e) else bucket_find fuel h code key b'
    end.

  (** The same with another pointer for the entry of the key. *)
  Fixpoint bucket_replace (fuel : nat) (h : heap) (code : N) (key : node) (p : ptr) (b : list entry) : res (list entry) :=
    match b with
    | [] => Ok []
    | e :: b' =>
        if cached && negb (N.eqb (e_hash e) code) then do r <- bucket_replace fuel h code key p b'; Ok (e :: r)
        else
          do same <- node_eq fuel h key (e_key e);
          if same then Ok (Entry (e_hash e) (e_key e) p :: b')
          else do r <- bucket_replace fuel h code key p b'; Ok (e :: r)
    end.

  Fixpoint at_slot (f : list entry -> list entry) (t : table) (i : nat) : table :=
    match t, i with
    | [], _ => []
    | b :: t', O => f b :: t'
    | b :: t', S i' => b :: at_slot f t' i'
    end.

  (** The hash code of an entry: stored, or computed again. *)
  Definition code_of (fuel : nat) (h : heap) (e : entry) : res N :=
    if cached then Ok (e_hash e) else node_hash fuel h (e_key e).

  Fixpoint place_all (fuel : nat) (h : heap) (t : table) (es : list entry) : res table :=
    match es with
    | [] => Ok t
    | e :: es' =>
        do code <- code_of fuel h e;
        place_all fuel h (at_slot (cons e) t (slot_of t code)) es'
    end.

  (** Moving all entries to [S n] new buckets. *)
  Definition regrow (fuel : nat) (h : heap) (n : nat) (t : table) : res table :=
    place_all fuel h (repeat [] (S n)) (concat t).

  (** SortedDawg::minimized_node (sorted_dawg.cpp:61-67). *)
  Definition h_minimized_node (fuel : nat) (h : heap) (t : table) (key : ptr) : res ptr :=
    do n <- read h key;
    do code <- node_hash fuel h n;
    bucket_find fuel h code n (nth (slot_of t code) t []).

  (** Assignment of [target] under the key [*target] (sorted_dawg.cpp:83). *)
  Definition h_assign (fuel : nat) (h : heap) (t : table) (target : ptr) : res table :=
    do n <- read h target;
    do code <- node_hash fuel h n;
    let i := slot_of t code in
    do found <- bucket_find fuel h code n (nth i t []);
    if negb (N.eqb found null) then
      do b <- bucket_replace fuel h code n target (nth i t []);
      Ok (at_slot (fun _ => b) t i)
    else
      do t1 <- match grow t with Some n => regrow fuel h n t | None => Ok t end;
      Ok (at_slot (cons (Entry code n target)) t1 (slot_of t1 code)).

  (** The work containers (sorted_dawg.h:90-97) and SortedDawg, as in ModelDawg. *)
  Record hwork := HWork { hw_unchecked : list trans; hw_table : table; hw_floating : list ptr }.
  Record hbuilder := HBuilder { hb_dawg : dawg; hb_prev : str; hb_work : option hwork }.

  (** The containers without the table, for the functions that do not use it. *)
  Definition other_work (w : hwork) : work := Work (hw_unchecked w) [] (hw_floating w).

  (** SortedDawg::minimize (sorted_dawg.cpp:69-86). *)
  Fixpoint h_minimize_loop (k fuel : nat) (h : heap) (w : hwork) : res (heap * hwork) :=
    match k with
    | O => Ok (h, w)
    | S k' =>
        match hw_unchecked w with
        | [] => UB
        | Trans label source target :: rest =>
            do existing <- h_minimized_node fuel h (hw_table w) target;
            if N.eqb existing null then
              do h1 <- add_edge h source label target;
              do t <- h_assign fuel h1 (hw_table w) target;
              h_minimize_loop k' fuel h1 (HWork rest t (hw_floating w))
            else
              do h1 <- add_edge h source label existing;
              h_minimize_loop k' fuel h1 (HWork rest (hw_table w) (hw_floating w))
        end
    end.
  Definition h_minimize (fuel : nat) (h : heap) (w : hwork) (lower_bound : nat) : res (heap * hwork) :=
    h_minimize_loop (length (hw_unchecked w) - lower_bound) fuel h w.

  (** SortedDawg::add (sorted_dawg.cpp:15-55). *)
  Definition h_add (fuel : nat) (alloc : heap -> ptr) (h : heap) (b : hbuilder) (term : str) : res (bool * heap * hbuilder) :=
    let d := hb_dawg b in
    if str_ltb term (hb_prev b) then Ok (false, h, b)
    else
      match term with
      | [] =>
          do h1 <- set_final h (d_root d) true;
          Ok (true, h1, HBuilder (Dawg (d_root d) (wadd (d_size d) 1)) term (hb_work b))
      | _ :: _ =>
          let i := common_prefix term (hb_prev b) in
          do w <- deref (hb_work b);
          do (h1, w1) <- h_minimize fuel h w i;
          let source := match hw_unchecked w1 with [] => d_root d | t :: _ => t_target t end in
          let '(h2, w2, last) := push_suffix alloc h1 (other_work w1) source (skipn i term) in
          do h3 <- set_final h2 last true;
          Ok (true, h3, HBuilder (Dawg (d_root d) (wadd (d_size d) 1)) term
            (Some (HWork (w_unchecked w2) (hw_table w1) (w_floating w2))))
      end.

  (** SortedDawg::finish, clean_up and destructor (sorted_dawg.cpp:11-13, 57-59,
      98-121, dawg.cpp:22-26). *)
  Definition h_finish (fuel : nat) (h : heap) (b : hbuilder) : res (heap * hbuilder) :=
    do w <- deref (hb_work b);
    do (h1, w1) <- h_minimize fuel h w 0;
    Ok (h1, HBuilder (hb_dawg b) (hb_prev b) (Some w1)).
  Definition without_table (b : hbuilder) : builder :=
    Builder (hb_dawg b) (hb_prev b) (option_map other_work (hb_work b)).
  Definition h_clean_up (fuel : nat) (h : heap) (b : hbuilder) : res (heap * hbuilder) :=
    do (h1, _) <- clean_up fuel h (without_table b);
    Ok (h1, HBuilder (hb_dawg b) (hb_prev b) None).
  Definition h_destroy (fuel : nat) (h : heap) (b : hbuilder) : res heap :=
    do (h1, b1) <- h_clean_up fuel h b;
    destroy_dawg fuel h1 (hb_dawg b1).

  (** [new SortedDawg()] and init() (dawg.cpp:17-20, sorted_dawg.cpp:92-96). *)
  Definition h_new (alloc : heap -> ptr) (h : heap) : heap * hbuilder :=
    let (h1, b) := new_sorted_dawg alloc h in
    (h1, HBuilder (b_dawg b) (b_prev b) (Some (HWork [] new_table []))).

  (** Some calls of add. *)
  Fixpoint h_adds (fuel : nat) (alloc : heap -> ptr) (h : heap) (b : hbuilder) (ts : list str)
    : res (list bool * heap * hbuilder) :=
    match ts with
    | [] => Ok ([], h, b)
    | t :: ts' =>
        do (r, h1, b1) <- h_add fuel alloc h b t;
        do (rs, h2, b2) <- h_adds fuel alloc h1 b1 ts';
        Ok (r :: rs, h2, b2)
    end.

  (** sorted_dawg(iter, end) (sorted_dawg.cpp:123-140); [None] is nullptr. *)
  Fixpoint h_add_all (fuel : nat) (alloc : heap -> ptr) (h : heap) (b : hbuilder) (terms : list str)
    : res (heap * option hbuilder) :=
    match terms with
    | [] => Ok (h, Some b)
    | term :: terms' =>
        do (accepted, h1, b1) <- h_add fuel alloc h b term;
        if accepted then h_add_all fuel alloc h1 b1 terms'
        else do h2 <- h_destroy fuel h1 b1; Ok (h2, None)
    end.
  Definition h_sorted_dawg (fuel : nat) (alloc : heap -> ptr) (h : heap) (terms : list str) : res (heap * option hbuilder) :=
    let (h0, b0) := h_new alloc h in
    do (h1, r) <- h_add_all fuel alloc h0 b0 terms;
    match r with
    | None => Ok (h1, None)
    | Some b1 =>
        do (h2, b2) <- h_finish fuel h1 b1;
        do (h3, b3) <- h_clean_up fuel h2 b2;
        Ok (h3, Some b3)
    end.
End Table.
