(** * ModelTests: the project's own tests.

    The tests in test/liblevenshtein, most of them written for the library
    rapidcheck, which runs them on arguments made up at random.  Here they are
    functions of these arguments. *)
From Verif Require Import Base Spec ModelDistance ModelHash ModelTransducer ModelDawg ModelState ModelIterator
  ModelQuery ModelSerial ModelWire.
Local Open Scope N_scope.

(** How a test ends: with something left over, which the theorems look at, or with
    a failed assertion. *)
Inductive verdict (A : Type) := Passed (x : A) | Failed.
Arguments Passed {A}. Arguments Failed {A}.

Definition RC_ASSERT {A : Type} (b : bool) (rest : res (verdict A)) : res (verdict A) :=
  if b then rest else Ok Failed.

(** A part of a test, then the rest. *)
Definition followed_by {A B : Type} (p : res (verdict A)) (rest : A -> res (verdict B)) : res (verdict B) :=
  do v <- p; match v with Passed x => rest x | Failed => Ok Failed end.

(** std::set, std::unordered_set: lists without repetitions. *)
Definition erase (x : str) (s : list str) : list str := filter (fun y => negb (str_eqb x y)) s.
Definition has (x : str) (s : list str) : bool := existsb (str_eqb x) s.
Definition nothing {A : Type} (s : list A) : bool := match s with [] => true | _ => false end.

(** ** test/liblevenshtein/transducer/test_state.cpp

    The objects of class State hold nothing but the pointer to the first position
    (see ModelState).  [triples] become positions, at new addresses
    (position_utils.cpp:6-14, [new_positions]). *)

(** [for (Position *expected : positions) { RC_ASSERT(expected == actual); actual
    = actual->next(); }] *)
Fixpoint expect_positions (m : positions) (expected : list ptr) (actual : ptr) : res (verdict ptr) :=
  match expected with
  | [] => Ok (Passed actual)
  | p :: expected' =>
      RC_ASSERT (p =? actual) (do next <- get_next m actual; expect_positions m expected' next)
  end.

(** [delete state] *)
Definition delete_state (fuel : nat) (m : positions) (head : ptr) : res (verdict positions) :=
  do m1 <- destroy_state fuel m head; Ok (Passed m1).

(** initializes_positions_correctly (test_state.cpp:19-31). *)
Definition initializes_positions_correctly (fuel : nat) (alloc : positions -> ptr) (m : positions)
  (triples : list position) : res (verdict positions) :=
  let (m1, ps) := new_positions alloc m triples in
  do (m2, head) <- state_of fuel m1 ps;
  followed_by (expect_positions m2 ps head) (fun _ => delete_state fuel m2 head).

(** sorts_positions_correctly (test_state.cpp:33-71). *)
Fixpoint in_order (fuel : nat) (alg : algorithm) (m : positions) (prev curr : ptr) : res (verdict unit) :=
  match fuel with
  | O => OOF
  | S fuel' =>
      if curr =? null then Ok (Passed tt)
      else
        do x <- get_pos m prev;
        do y <- get_pos m curr;
        RC_ASSERT (compare alg x y <? 1)%Z (do next <- get_next m curr; in_order fuel' alg m curr next)
  end.
Definition sorts_once (fuel : nat) (order : positions -> ptr -> bool) (alg : algorithm) (m : positions) (head : ptr)
  : res (verdict (positions * ptr)) :=
  do (m1, head1) <- state_sort fuel order (compare alg) m head;
  RC_ASSERT (negb (head1 =? null))
    (do curr <- get_next m1 head1;
     followed_by (in_order fuel alg m1 head1 curr) (fun _ => Ok (Passed (m1, head1)))).
Definition sorts_positions_correctly (fuel : nat) (alloc : positions -> ptr) (order : positions -> ptr -> bool)
  (m : positions) (triples : list position) : res (verdict positions) :=
  match triples with
  | [] => Ok (Passed m)
  | _ :: _ =>
      let (m1, ps) := new_positions alloc m triples in
      do (m2, head) <- state_of fuel m1 ps;
      followed_by (sorts_once fuel order STANDARD m2 head) (fun '(m3, head1) =>
      followed_by (sorts_once fuel order TRANSPOSITION m3 head1) (fun '(m4, head2) =>
      followed_by (sorts_once fuel order MERGE_AND_SPLIT m4 head2) (fun '(m5, head3) =>
      delete_state fuel m5 head3)))
  end.

(** adds_to_tail_of_positions (test_state.cpp:73-88); [before] are the positions
    that have been added. *)
Fixpoint adds_loop (fuel : nat) (m : positions) (head : ptr) (before ps : list ptr) : res (verdict (positions * ptr)) :=
  match ps with
  | [] => Ok (Passed (m, head))
  | p :: ps' =>
      do (m1, head1) <- state_add fuel m head p;
      followed_by (expect_positions m1 (before ++ [p]) head1) (fun _ => adds_loop fuel m1 head1 (before ++ [p]) ps')
  end.
Definition adds_to_tail_of_positions (fuel : nat) (alloc : positions -> ptr) (m : positions)
  (triples : list position) : res (verdict positions) :=
  let (m1, ps) := new_positions alloc m triples in
  followed_by (adds_loop fuel m1 null [] ps) (fun '(m2, head) => delete_state fuel m2 head).

(** correctly_inserts_positions_after_others (test_state.cpp:90-106), and
    inserts_positions_in_the_expected_location (test_merge.cpp:17-34), which does
    the same with the function insert_after of merge.cpp. *)
Fixpoint inserts_loop (insert : positions -> ptr -> ptr -> ptr -> res (positions * ptr))
  (m : positions) (head curr : ptr) (ps : list ptr) : res (positions * ptr) :=
  match ps with
  | [] => Ok (m, head)
  | next :: ps' => do (m1, head1) <- insert m head curr next; inserts_loop insert m1 head1 next ps'
  end.
Definition correctly_inserts_positions_after_others (fuel : nat) (alloc : positions -> ptr) (m : positions)
  (triples : list position) : res (verdict positions) :=
  let (m1, ps) := new_positions alloc m triples in
  do (m2, head) <- inserts_loop (state_insert_after fuel) m1 null null ps;
  followed_by (expect_positions m2 ps head) (fun _ => delete_state fuel m2 head).
Definition inserts_positions_in_the_expected_location (fuel : nat) (alloc : positions -> ptr) (m : positions)
  (triples : list position) : res (verdict positions) :=
  let (m1, ps) := new_positions alloc m triples in
  do (m2, head) <- inserts_loop (insert_after fuel) m1 null null ps;
  followed_by (expect_positions m2 ps head) (fun _ => delete_state fuel m2 head).

(** correctly_removes_positions (test_state.cpp:108-131); operator[] of a vector
    beyond its end is undefined. *)
Definition correctly_removes_positions (fuel : nat) (alloc : positions -> ptr) (m : positions)
  (triples : list position) : res (verdict positions) :=
  if negb (Nat.ltb 2 (length triples)) then Ok (Passed m)
  else
    let (m1, ps) := new_positions alloc m triples in
    do (m2, head) <- state_of fuel m1 ps;
    do (m3, head1) <- state_remove fuel m2 head null head;
    do p1 <- deref (nth_error ps 1);
    RC_ASSERT (p1 =? head1)
      (do curr <- get_next m3 head1;
       do (m4, head2) <- state_remove fuel m3 head1 head1 curr;
       RC_ASSERT (p1 =? head2)
         (do next <- get_next m4 head2;
          if Nat.ltb 3 (length ps) then
            do p3 <- deref (nth_error ps 3);
            RC_ASSERT (p3 =? next) (delete_state fuel m4 head2)
          else RC_ASSERT (null =? next) (delete_state fuel m4 head2))).

(** iterates_over_positions (test_state.cpp:133-182). *)
Fixpoint iterates_loop (m : positions) (it : iterator) (ps : list ptr) : res (verdict iterator) :=
  match ps with
  | [] => Ok (Passed it)
  | p :: ps' => RC_ASSERT (p =? si_curr it) (do it1 <- iterator_next m it; iterates_loop m it1 ps')
  end.
Definition iterates_over_positions (fuel : nat) (alloc : positions -> ptr) (m : positions)
  (triples : list position) : res (verdict positions) :=
  let (m1, ps) := new_positions alloc m triples in
  do (m2, head) <- state_of fuel m1 ps;
  do iter <- state_begin m2 head;
  do iter_end <- state_end m2;
  followed_by
    (if nothing triples then RC_ASSERT (iterator_eq iter iter_end) (Ok (Passed (m2, head, iter)))
     else
       RC_ASSERT (negb (iterator_eq iter iter_end))
         (do p0 <- deref (nth_error ps 0);
          RC_ASSERT (p0 =? si_curr iter)
            (do (m3, head1, iter1, _) <- iterator_remove fuel m2 head iter None;
             RC_ASSERT (si_curr iter1 =? null)
               (if Nat.eqb (length triples) 1 then
                  RC_ASSERT (iterator_eq iter1 iter_end) (Ok (Passed (m3, head1, iter1)))
                else
                  RC_ASSERT (negb (iterator_eq iter1 iter_end))
                    (do iter2 <- iterator_next m3 iter1;
                     do p1 <- deref (nth_error ps 1);
                     RC_ASSERT (p1 =? si_curr iter2)
                       (do iter3 <- iterator_next m3 iter2;
                        if Nat.eqb (length triples) 2 then
                          RC_ASSERT (iterator_eq iter3 iter_end) (Ok (Passed (m3, head1, iter3)))
                        else
                          do p2 <- deref (nth_error ps 2);
                          RC_ASSERT (p2 =? si_curr iter3)
                            (let (p, m4) := new_position alloc m3 (Pos 0 0 false) in
                             do (m5, head2, iter4) <- iterator_insert fuel m4 head1 iter3 p;
                             RC_ASSERT (p2 =? si_curr iter4)
                               (do iter5 <- iterator_next m5 iter4;
                                RC_ASSERT (p =? si_curr iter5)
                                  (do iter6 <- iterator_next m5 iter5;
                                   followed_by (iterates_loop m5 iter6 (skipn 3 ps)) (fun iter7 =>
                                   Ok (Passed (m5, head2, iter7))))))))))))
    (fun '(m6, head3, it) =>
     RC_ASSERT (null =? si_curr it) (RC_ASSERT (negb (negb (iterator_eq it iter_end))) (delete_state fuel m6 head3))).

(** ** test/liblevenshtein/test/utils/test_comparators.cpp

    correctly_compares_positions (13-66): consecutive positions. *)
Definition compares_two (x y : position) : bool :=
  if ti x <? ti y then
    (compare STANDARD x y <? 0)%Z && (compare TRANSPOSITION x y <? 0)%Z && (compare MERGE_AND_SPLIT x y <? 0)%Z
  else if ti y <? ti x then
    (0 <? compare STANDARD x y)%Z && (0 <? compare TRANSPOSITION x y)%Z && (0 <? compare MERGE_AND_SPLIT x y)%Z
  else if ne x <? ne y then
    (compare STANDARD x y <? 0)%Z && (compare TRANSPOSITION x y <? 0)%Z && (compare MERGE_AND_SPLIT x y <? 0)%Z
  else if ne y <? ne x then
    (0 <? compare STANDARD x y)%Z && (0 <? compare TRANSPOSITION x y)%Z && (0 <? compare MERGE_AND_SPLIT x y)%Z
  else
    (compare STANDARD x y =? 0)%Z &&
    (if sp x && negb (sp y) then (0 <? compare TRANSPOSITION x y)%Z && (0 <? compare MERGE_AND_SPLIT x y)%Z
     else if negb (sp x) && sp y then (compare TRANSPOSITION x y <? 0)%Z && (compare MERGE_AND_SPLIT x y <? 0)%Z
     else (compare TRANSPOSITION x y =? 0)%Z && (compare MERGE_AND_SPLIT x y =? 0)%Z).
Fixpoint compares_loop (m : positions) (prev : ptr) (ps : list ptr) : res (verdict unit) :=
  match ps with
  | [] => Ok (Passed tt)
  | curr :: ps' =>
      do x <- get_pos m prev;
      do y <- get_pos m curr;
      RC_ASSERT (compares_two x y) (compares_loop m curr ps')
  end.
Fixpoint delete_each (fuel : nat) (m : positions) (ps : list ptr) : res positions :=
  match ps with
  | [] => Ok m
  | p :: ps' => do m1 <- delete_position fuel m p; delete_each fuel m1 ps'
  end.
Definition correctly_compares_positions (fuel : nat) (alloc : positions -> ptr) (m : positions)
  (triples : list position) : res (verdict positions) :=
  let (m1, ps) := new_positions alloc m triples in
  followed_by (match ps with [] => Ok (Passed tt) | prev :: ps' => compares_loop m1 prev ps' end) (fun _ =>
  do m2 <- delete_each fuel m1 ps; Ok (Passed m2)).

(** ** test/liblevenshtein/collection/test_transition.cpp *)

(** Transition::operator== (transition.cpp:31-35). *)
Definition trans_eq (fuel : nat) (h : heap) (a b : trans) : res bool :=
  if negb (ceqb (t_label a) (t_label b)) then Ok false
  else
    do s <- read h (t_source a);
    do s' <- read h (t_source b);
    do e <- node_eq fuel h s s';
    if negb e then Ok false
    else
      do t <- read h (t_target a);
      do t' <- read h (t_target b);
      node_eq fuel h t t'.

(** has_proper_copy_and_move_constructors (test_transition.cpp:6-17); the nodes are
    local variables there. *)
Definition has_proper_copy_and_move_constructors (fuel : nat) (alloc : heap -> ptr) (h : heap) : res (verdict heap) :=
  let (source, h1) := new_node alloc h false in
  let (target1, h2) := new_node alloc h1 false in
  let (target2, h3) := new_node alloc h2 true in
  let trans1 := Trans Ascii.zero source target1 in
  let trans2 := trans1 in
  let trans3 := Trans Ascii.zero source target2 in
  let trans4 := Trans "a"%char source target1 in
  do e2 <- trans_eq fuel h3 trans1 trans2;
  RC_ASSERT e2
    (do e3 <- trans_eq fuel h3 trans1 trans3;
     RC_ASSERT (negb e3)
       (do e4 <- trans_eq fuel h3 trans1 trans4;
        RC_ASSERT (negb e4)
          (do h4 <- delete h3 target2; do h5 <- delete h4 target1; do h6 <- delete h5 source; Ok (Passed h6)))).

(** has_correct_getters (test_transition.cpp:19-26). *)
Definition has_correct_getters (fuel : nat) (alloc : heap -> ptr) (h : heap) : res (verdict heap) :=
  let (source, h1) := new_node alloc h false in
  let (target, h2) := new_node alloc h1 true in
  let transition := Trans Ascii.zero source target in
  RC_ASSERT (ceqb Ascii.zero (t_label transition))
    (do a <- read h2 source; do a' <- read h2 (t_source transition);
     do e <- node_eq fuel h2 a a';
     RC_ASSERT e
       (do b <- read h2 target; do b' <- read h2 (t_target transition);
        do e' <- node_eq fuel h2 b b';
        RC_ASSERT e' (do h3 <- delete h2 target; do h4 <- delete h3 source; Ok (Passed h4)))).

(** ** test/liblevenshtein/collection/test_prefix.cpp

    returns_original_string (13-51).  [nodes] and [prefixes] are the two vectors. *)
Record growth := Growth { g_heap : heap; g_prefixes : mem pcell; g_node_vector : list ptr; g_prefix_vector : list ptr }.

(** One more node and one more prefix, and the assertions about them; the label of
    the root is not looked at. *)
Definition grow (fuel : nat) (alloc : heap -> ptr) (palloc : mem pcell -> ptr) (fin : bool) (parent : ptr)
  (label : char) (g : growth) : res (verdict (ptr * growth)) :=
  let (node, h) := new_node alloc (g_heap g) fin in
  let (prefix, m) := mnew palloc (g_prefixes g) (PCell node parent label) in
  do x <- mread m prefix;
  do a <- read h node;
  do b <- read h (pc_node x);
  do e <- node_eq fuel h a b;
  RC_ASSERT e
    (RC_ASSERT (ceqb label (pc_label x))
       (Ok (Passed (prefix, Growth h m (g_node_vector g ++ [node]) (g_prefix_vector g ++ [prefix]))))).
Fixpoint grow_all (fuel : nat) (alloc : heap -> ptr) (palloc : mem pcell -> ptr) (parent : ptr)
  (term : str) (g : growth) : res (verdict (ptr * growth)) :=
  match term with
  | [] => Ok (Passed (parent, g))
  | c :: term' =>
      followed_by (grow fuel alloc palloc (nothing term') parent c g) (fun '(prefix, g1) =>
      grow_all fuel alloc palloc prefix term' g1)
  end.
Definition returns_original_string (fuel : nat) (alloc : heap -> ptr) (palloc : mem pcell -> ptr) (h : heap)
  (m : mem pcell) (term : str) : res (verdict (heap * mem pcell)) :=
  followed_by (grow fuel alloc palloc (nothing term) null Ascii.zero (Growth h m [] [])) (fun '(root, g) =>
  followed_by (grow_all fuel alloc palloc root term g) (fun '(prefix, g1) =>
  do s <- pcell_str fuel (g_prefixes g1) prefix;
  RC_ASSERT (str_eqb term s)
    (do m1 <- delete_prefixes (g_prefixes g1) (g_prefix_vector g1);
     do h1 <- delete_all (g_heap g1) (g_node_vector g1);
     Ok (Passed (h1, m1))))).

(** ** test/liblevenshtein/collection/test_dawg_node.cpp

    The sets of labels are lists without repetitions, in the order in which
    iteration yields them.  The targets of the edges are never deleted. *)
Definition same_labels (xs ys : list char) : bool :=
  Nat.eqb (length xs) (length ys) && forallb (fun c => existsb (ceqb c) ys) xs.

(** [for (const char label : labels) node->add_edge(label, new DawgNode(fin));] *)
Fixpoint add_edges (alloc : heap -> ptr) (fin : bool) (h : heap) (p : ptr) (labels : list char) : res heap :=
  match labels with
  | [] => Ok h
  | label :: labels' =>
      let (target, h1) := new_node alloc h fin in
      do h2 <- add_edge h1 p label target;
      add_edges alloc fin h2 p labels'
  end.

(** is_comparable (test_dawg_node.cpp:13-41). *)
Definition is_comparable (fuel : nat) (alloc : heap -> ptr) (h : heap)
  (xs : list char) (xs_is_final xs_has_final_transitions : bool)
  (ys : list char) (ys_is_final ys_has_final_transitions : bool) : res (verdict heap) :=
  let (xs_node, h1) := new_node alloc h xs_is_final in
  do h2 <- add_edges alloc xs_has_final_transitions h1 xs_node xs;
  let (ys_node, h3) := new_node alloc h2 ys_is_final in
  do h4 <- add_edges alloc ys_has_final_transitions h3 ys_node ys;
  do a <- read h4 xs_node;
  do b <- read h4 ys_node;
  do e <- node_eq fuel h4 a b;
  RC_ASSERT
    (if same_labels xs ys && Bool.eqb xs_is_final ys_is_final &&
        (Bool.eqb xs_has_final_transitions ys_has_final_transitions || nothing xs)
     then e else negb e)
    (do h5 <- delete h4 xs_node; do h6 <- delete h5 ys_node; Ok (Passed h6)).

(** has_equivalent_constructors (test_dawg_node.cpp:43-78). *)
Fixpoint make_edges (alloc : heap -> ptr) (h : heap) (labels : list char) (edges : list (char * ptr))
  : heap * list (char * ptr) :=
  match labels with
  | [] => (h, edges)
  | label :: labels' =>
      let (target, h1) := new_node alloc h false in make_edges alloc h1 labels' (edge_set edges label target)
  end.
Definition has_equivalent_constructors (fuel : nat) (alloc : heap -> ptr) (h : heap) (labels : list char)
  (is_final : bool) : res (verdict heap) :=
  let (h1, edges) := make_edges alloc h labels [] in
  let (lhs, h2) := new_node alloc h1 is_final in
  let rhs := alloc h2 in
  let h3 := hset h2 rhs (Node is_final edges) in
  do h4 <- add_edges alloc false h3 lhs labels;
  do a <- read h4 lhs;
  do b <- read h4 rhs;
  do e <- node_eq fuel h4 a b;
  RC_ASSERT e
    (RC_ASSERT (Bool.eqb (nfin a) is_final)
       (RC_ASSERT (Bool.eqb (nfin b) is_final)
          (do h5 <- delete h4 lhs; do h6 <- delete h5 rhs; Ok (Passed h6)))).

(** can_have_edges_added (test_dawg_node.cpp:80-106). *)
Fixpoint add_and_note (alloc : heap -> ptr) (h : heap) (p : ptr) (labels : list char) (edges : list (char * ptr))
  : res (heap * list (char * ptr)) :=
  match labels with
  | [] => Ok (h, edges)
  | label :: labels' =>
      let (target, h1) := new_node alloc h false in
      do h2 <- add_edge h1 p label target;
      add_and_note alloc h2 p labels' (edge_set edges label target)
  end.
Definition can_have_edges_added (alloc : heap -> ptr) (h : heap) (labels : list char) (is_final : bool)
  : res (verdict heap) :=
  let (node, h1) := new_node alloc h is_final in
  do (h2, edges) <- add_and_note alloc h1 node labels [];
  do n <- read h2 node;
  RC_ASSERT (same_labels labels (map fst (nedges n)))
    (RC_ASSERT (forallb (fun label => negb (transition n label =? null) &&
                                      (transition n label =? transition (Node false edges) label)) labels)
       (do h3 <- delete h2 node; Ok (Passed h3))).

(** ** test/liblevenshtein/collection/test_sorted_dawg.cpp *)

(** is_sorted (test_sorted_dawg.cpp:21-30), for a vector that is not empty. *)
Fixpoint is_sorted_from (prev : str) (terms : list str) : bool :=
  match terms with
  | [] => true
  | t :: terms' => if str_ltb t prev then false else is_sorted_from t terms'
  end.
Definition is_sorted (terms : list str) : bool :=
  match terms with [] => true | t :: terms' => is_sorted_from t terms' end.

(** rejects_unsorted_terms (test_sorted_dawg.cpp:32-42).  [shuffles] is what the
    vector is after the calls of std::shuffle, of which there are as many as are
    needed. *)
Fixpoint shuffle_until_unsorted (terms : list str) (shuffles : list (list str)) : res (list str) :=
  if is_sorted terms then
    match shuffles with [] => OOF | terms' :: shuffles' => shuffle_until_unsorted terms' shuffles' end
  else Ok terms.
Definition rejects_unsorted_terms (fuel : nat) (alloc : heap -> ptr) (h : heap) (terms : list str)
  (shuffles : list (list str)) : res (verdict heap) :=
  if negb (Nat.ltb 1 (length terms)) then Ok (Passed h)
  else
    do terms_to_add <- shuffle_until_unsorted terms shuffles;
    do (h1, dawg) <- sorted_dawg fuel alloc h terms_to_add;
    match dawg with None => Ok (Passed h1) | Some _ => Ok Failed end.

(** contains_expected_terms (test_sorted_dawg.cpp:44-74). *)
Fixpoint expect_contains (h : heap) (d : dawg) (terms : list str) (expected : bool) : res (verdict unit) :=
  match terms with
  | [] => Ok (Passed tt)
  | t :: terms' => do b <- contains h d t; RC_ASSERT (Bool.eqb b expected) (expect_contains h d terms' expected)
  end.
Fixpoint tick_off (listed left : list str) : res (verdict (list str)) :=
  match listed with
  | [] => Ok (Passed left)
  | t :: listed' => RC_ASSERT (has t left) (tick_off listed' (erase t left))
  end.
Definition contains_expected_terms (fuel : nat) (alloc : heap -> ptr) (h : heap) (to_add to_ignore : list str)
  : res (verdict heap) :=
  let terms := fold_left (fun s t => erase t s) to_ignore to_add in
  do (h1, dawg) <- sorted_dawg fuel alloc h terms;
  match dawg with
  | None => Ok Failed
  | Some b =>
      followed_by (if has [] terms then Ok (Passed tt) else expect_contains h1 (b_dawg b) [[]] false) (fun _ =>
      followed_by (expect_contains h1 (b_dawg b) terms true) (fun _ =>
      followed_by (expect_contains h1 (b_dawg b) to_ignore false) (fun _ =>
      do listed <- iterate fuel h1 (b_dawg b);
      followed_by (tick_off listed terms) (fun left =>
      RC_ASSERT (nothing left) (do h2 <- destroy fuel h1 b; Ok (Passed h2))))))
  end.

(** ** test/liblevenshtein/transducer/test_transducer.cpp

    The object [d] keeps its memo from test to test. *)

(** The loop over the dictionary (test_transducer.cpp:35-40), for every query. *)
Fixpoint close_terms (alg : algorithm) (n : N) (query : str) (terms : list str) (m : memo) : res (list str * memo) :=
  match terms with
  | [] => Ok ([], m)
  | t :: terms' =>
      do (k, m1) <- run (between alg t query) m;
      do (close, m2) <- close_terms alg n query terms' m1;
      Ok (if N.of_nat k <=? n then t :: close else close, m2)
  end.
Fixpoint all_close_terms (alg : algorithm) (n : N) (queries terms : list str) (m : memo)
  : res (list (str * list str) * memo) :=
  match queries with
  | [] => Ok ([], m)
  | q :: queries' =>
      do (close, m1) <- close_terms alg n q terms m;
      do (others, m2) <- all_close_terms alg n queries' terms m1;
      Ok ((q, close) :: others, m2)
  end.

(** The loop over the results (test_transducer.cpp:49-56). *)
Fixpoint expect_candidates (alg : algorithm) (query : str) (results : list (str * N)) (left : list str) (m : memo)
  : res (verdict memo) :=
  match results with
  | [] => RC_ASSERT (nothing left) (Ok (Passed m))
  | (term, distance) :: results' =>
      RC_ASSERT (has term left)
        (do (k, m1) <- run (between alg term query) m;
         RC_ASSERT (distance =? N.of_nat k) (expect_candidates alg query results' (erase term left) m1))
  end.
Fixpoint expect_all_candidates (fuel : nat) (alg : algorithm) (h : heap) (d : dawg) (n : N)
  (expected : list (str * list str)) (m : memo) : res (verdict memo) :=
  match expected with
  | [] => Ok (Passed m)
  | (query, close) :: expected' =>
      do results <- query_all as_candidate fuel h (new_transducer alg (d_root d)) query n;
      followed_by (expect_candidates alg query results close m) (fun m1 =>
      expect_all_candidates fuel alg h d n expected' m1)
  end.
Fixpoint expect_all_terms (fuel : nat) (alg : algorithm) (h : heap) (d : dawg) (n : N)
  (expected : list (str * list str)) : res (verdict unit) :=
  match expected with
  | [] => Ok (Passed tt)
  | (query, close) :: expected' =>
      do results <- query_all as_string fuel h (new_transducer alg (d_root d)) query n;
      followed_by (tick_off results close) (fun left =>
      RC_ASSERT (nothing left) (expect_all_terms fuel alg h d n expected'))
  end.

(** test_transducer (test_transducer.cpp:27-71). *)
Definition test_transducer (fuel : nat) (alloc : heap -> ptr) (alg : algorithm) (h : heap) (m : memo)
  (dictionary_terms query_terms : list str) (max_distance : N) : res (verdict (heap * memo)) :=
  do (expected, m1) <- all_close_terms alg max_distance query_terms dictionary_terms m;
  do (h1, dawg) <- sorted_dawg fuel alloc h dictionary_terms;
  do b <- deref dawg;
  followed_by (expect_all_candidates fuel alg h1 (b_dawg b) max_distance expected m1) (fun m2 =>
  followed_by (expect_all_terms fuel alg h1 (b_dawg b) max_distance expected) (fun _ =>
  do h2 <- destroy fuel h1 b; Ok (Passed (h2, m2)))).

(** One test after the other; a test is a dictionary, a set of queries and a maximum
    distance. *)
Fixpoint test_transducers (fuel : nat) (alloc : heap -> ptr) (alg : algorithm) (h : heap) (m : memo)
  (tests : list (list str * list str * N)) : res (verdict (heap * memo)) :=
  match tests with
  | [] => Ok (Passed (h, m))
  | (dictionary_terms, query_terms, max_distance) :: tests' =>
      followed_by (test_transducer fuel alloc alg h m dictionary_terms query_terms max_distance) (fun '(h1, m1) =>
      test_transducers fuel alloc alg h1 m1 tests')
  end.

(** ** test/liblevenshtein/distance/

    test_{standard,transposition,merge_and_split}_distance.cpp: five tests each.
    They share the object [d].  C++ does not say which operand is evaluated first:
    the booleans decide. *)
Inductive distance_test :=
| Non_negativity (x y : str)
| Indiscernible_identity (x y : str)
| Symmetry (order : bool) (x y : str)
| Triangle_inequality (order1 order2 : bool) (x y z : str)
| Left_and_right_invariance (order1 order2 : bool) (x y z : str).

Definition both {A B : Type} (order : bool) (p : prog A) (q : prog B) : prog (A * B) :=
  if order then pbind p (fun a => pbind q (fun b => Ret (a, b)))
  else pbind q (fun b => pbind p (fun a => Ret (a, b))).

(** Whether the assertions hold. *)
Definition distance_test_holds (alg : algorithm) (t : distance_test) : prog bool :=
  let d := between alg in
  (match t with
   | Non_negativity x y => pbind (d x y) (fun k => Ret (0 <=? k))
   | Indiscernible_identity x y => pbind (d x y) (fun k => Ret (if k =? 0 then str_eqb x y else true))
   | Symmetry o x y => pbind (both o (d x y) (d y x)) (fun '(a, b) => Ret (a =? b))
   | Triangle_inequality o1 o2 x y z =>
       pbind (both o1 (d x y) (both o2 (d x z) (d z y))) (fun '(a, (b, c)) => Ret (a <=? b + c))
   | Left_and_right_invariance o1 o2 x y z =>
       pbind (both o1 (d (z ++ x) (z ++ y)) (d x y)) (fun '(a, b) =>
         if a =? b then pbind (both o2 (d (x ++ z) (y ++ z)) (d x y)) (fun '(a, b) => Ret (a =? b))
         else Ret false)
   end)%nat.

(** A run of tests, one after the other. *)
Fixpoint distance_tests_hold (alg : algorithm) (ts : list distance_test) : prog (list bool) :=
  match ts with
  | [] => Ret []
  | t :: ts' => pbind (distance_test_holds alg t) (fun b => pbind (distance_tests_hold alg ts') (fun bs => Ret (b :: bs)))
  end.

(** test_symmetric_pair.cpp: is_comparable (11-43), up to the assertions about hash
    codes that should be different, which are the last two. *)
Definition pairs_are_comparable (foo bar baz : str) : res (verdict (N * N * N)) :=
  let pair1 := symmetric_pair foo bar in
  let pair2 := symmetric_pair bar foo in
  let pair3 := symmetric_pair foo baz in
  RC_ASSERT (ModelDistance.key_eqb pair1 pair1 && ModelDistance.key_eqb pair2 pair2 && ModelDistance.key_eqb pair3 pair3 &&
             ModelDistance.key_eqb pair1 pair2 && ModelDistance.key_eqb pair2 pair1)
    (do hash1 <- pair_hash pair1;
     do hash2 <- pair_hash pair2;
     do hash3 <- pair_hash pair3;
     RC_ASSERT (hash1 =? hash2)
       (if negb (str_eqb bar baz) then
          RC_ASSERT (negb (ModelDistance.key_eqb pair1 pair3) && negb (ModelDistance.key_eqb pair3 pair1) &&
                     negb (ModelDistance.key_eqb pair2 pair3) && negb (ModelDistance.key_eqb pair3 pair2))
            (Ok (Passed (hash1, hash2, hash3)))
        else Ok (Passed (hash1, hash2, hash3)))).
Definition pair_is_comparable (foo bar baz : str) : res (verdict unit) :=
  followed_by (pairs_are_comparable foo bar baz) (fun '(hash1, hash2, hash3) =>
  if negb (str_eqb bar baz) then RC_ASSERT (negb (hash1 =? hash3)) (RC_ASSERT (negb (hash2 =? hash3)) (Ok (Passed tt)))
  else Ok (Passed tt)).

(** ** test/liblevenshtein/serialization/test_protobuf_serializer.cpp

    restores_dawg (19-35).  The path does not exist before (file_utils.cpp:27-57);
    [size], [split], [opens], [room] are as in serialize_file. *)
Definition restores_dawg (fuel : nat) (alloc : heap -> ptr) (size : N) (split : list byte -> list (list byte))
  (opens : bool) (room : N) (h : heap) (terms : list str) : res (verdict heap) :=
  do (h1, expected) <- sorted_dawg fuel alloc h terms;
  match expected with
  | None => Ok Failed
  | Some b =>
      do (ok, file) <- serialize_file fuel size split opens room None h1 (b_dawg b);
      RC_ASSERT ok
        (do (h2, actual) <- deserialize_file alloc h1 file;
         match actual with
         | None => Ok Failed
         | Some b' =>
             do e <- dawg_eq fuel h2 (b_dawg b) (b_dawg b');
             RC_ASSERT e (do h3 <- destroy fuel h2 b; do h4 <- destroy fuel h3 b'; Ok (Passed h4))
         end)
  end.
