(** * AloneProofs: a program that runs alone does what the function does. *)
From Verif Require Import Base Spec ModelTransducer ModelDawg ModelQuery ModelState ModelMemory SpecMemory ModelShared.
Local Open Scope N_scope.

Section Alone.
  Variables (al : allocators) (order : positions -> ptr -> bool) (h : heap).
  Notation run_alone := (alone al order h).

  Lemma alone_bind {A B} (p : program A) (f : A -> program B) : forall w,
    run_alone (bind p f) w = (do (w1, x) <- run_alone p w; run_alone (f x) w1).
  Proof.
    induction p as [x| | |c a k IH|c a x k IH|c x k IH|c a k IH|a k IH|a x b k IH]; intros w; cbn [bind alone];
      try reflexivity.
    - destruct (mread (part w c) a); cbn [rbind]; auto.
    - destruct (mwrite (part w c) a x); cbn [rbind]; auto.
    - apply IH.
    - destruct (mfree (part w c) a); cbn [rbind]; auto.
    - destruct (read h a); cbn [rbind]; auto.
    - destruct (mwrite (w_pos w) a x); cbn [rbind]; auto.
  Qed.

  Lemma alone_lift {A} (r : res A) w : run_alone (lift r) w = (do x <- r; Ok (w, x)).
  Proof. now destruct r. Qed.

  Lemma alone_read c p w : run_alone (Read c p Return) w = (do x <- mread (part w c) p; Ok (w, x)).
  Proof. reflexivity. Qed.
  Lemma alone_node p w : run_alone (ReadNode p Return) w = (do x <- read h p; Ok (w, x)).
  Proof. reflexivity. Qed.
  Lemma alone_return {A} (x : A) w : run_alone (Return x) w = Ok (w, x).
  Proof. reflexivity. Qed.

  (** A program that returns a value and does not change memory; one that changes
      the positions. *)
  Definition looks {A} (p : program A) (f : positions -> res A) : Prop :=
    forall m ss is, run_alone p (World m ss is) = (do x <- f m; Ok (World m ss is, x)).
  Definition changes {A} (p : program A) (f : positions -> res (positions * A)) : Prop :=
    forall m ss is, run_alone p (World m ss is) = (do (m1, x) <- f m; Ok (World m1 ss is, x)).

  Lemma rbind_assoc {A B C} (r : res A) (f : A -> res B) (g : B -> res C) :
    (do y <- (do x <- r; f x); g y) = (do x <- r; do y <- f x; g y).
  Proof. now destruct r. Qed.

  Lemma get_next_alone p : looks (p_get_next p) (fun m => get_next m p).
  Proof. intros m ss is. unfold p_get_next, get_next. cbn [alone object part w_pos]. destruct (mread m p); reflexivity. Qed.
  Lemma get_pos_alone p : looks (p_get_pos p) (fun m => get_pos m p).
  Proof. intros m ss is. unfold p_get_pos, get_pos. cbn [alone object part w_pos]. destruct (mread m p); reflexivity. Qed.
  Lemma set_next_alone p q : changes (p_set_next p q) (fun m => do m1 <- set_next m p q; Ok (m1, tt)).
  Proof.
    intros m ss is. unfold p_set_next, set_next. cbn [alone object part w_pos with_part w_st w_int].
    destruct (mread m p) as [c| |]; cbn [rbind]; try reflexivity. destruct (mwrite m p _); reflexivity.
  Qed.
  Lemma new_position_alone x : changes (p_new_position x)
    (fun m => let (p, m1) := new_position (a_pos al) m x in Ok (m1, p)).
  Proof. intros m ss is. reflexivity. Qed.
  Lemma free_alone p : changes (Free OfPosition p (Return tt)) (fun m => do m1 <- mfree m p; Ok (m1, tt)).
  Proof. intros m ss is. cbn [alone object part w_pos with_part w_st w_int]. destruct (mfree m p); reflexivity. Qed.

  (** Both sides step by step; [t] knows about the functions that are called. *)
  Ltac drive t := repeat first
    [ reflexivity
    | progress (cbn [rbind])
    | match goal with
      | |- context [alone al order h (bind _ _) _] => rewrite alone_bind
      | |- context [alone al order h (Return _) _] => rewrite alone_return
      | |- context [alone al order h (p_get_next _) _] => rewrite get_next_alone
      | |- context [alone al order h (p_get_pos _) _] => rewrite get_pos_alone
      | |- context [alone al order h (p_set_next _ _) _] => rewrite set_next_alone
      | |- context [alone al order h (lift _) _] => rewrite alone_lift
      end
    | progress t
    | match goal with
      | |- context [alone al order h (if ?b then _ else _) _] => destruct b
      | |- context [let (_, _) := ?x in _] => is_var x; destruct x
      | |- rbind (rbind _ _) _ = _ => rewrite rbind_assoc
      | |- rbind ?r _ = _ => lazymatch r with context [alone] => fail | context [if _ then _ else _] => fail | _ => destruct r as [?| |] end
      end ].

  Lemma delete_position_alone : forall fuel p,
    changes (p_delete_position fuel p) (fun m => do m1 <- delete_position fuel m p; Ok (m1, tt)).
  Proof.
    induction fuel as [|fuel IH]; intros p m ss is; [reflexivity|]. cbn [p_delete_position delete_position].
    drive ltac:(first [rewrite IH | rewrite free_alone]).
  Qed.

  Lemma state_head_alone head p : changes (p_state_head head p) (fun m => state_head m head p).
  Proof. intros m ss is. unfold p_state_head, state_head. drive fail. Qed.

  Lemma last_position_alone : forall fuel curr,
    looks (p_last_position fuel curr) (fun m => last_position fuel m curr).
  Proof.
    induction fuel as [|fuel IH]; intros curr m ss is; [reflexivity|]. cbn [p_last_position last_position].
    drive fail. apply IH.
  Qed.

  Lemma state_add_alone fuel head next : changes (p_state_add fuel head next) (fun m => state_add fuel m head next).
  Proof. intros m ss is. unfold p_state_add, state_add. drive ltac:(first [rewrite last_position_alone]). Qed.

  Lemma state_insert_after_alone fuel head curr next :
    changes (p_state_insert_after fuel head curr next) (fun m => state_insert_after fuel m head curr next).
  Proof. intros m ss is. unfold p_state_insert_after, state_insert_after. drive ltac:(first [apply state_add_alone]). Qed.

  Lemma state_remove_alone fuel head prev curr :
    changes (p_state_remove fuel head prev curr) (fun m => state_remove fuel m head prev curr).
  Proof.
    intros m ss is. unfold p_state_remove, state_remove.
    drive ltac:(first [rewrite delete_position_alone]).
  Qed.

  Lemma find_middle_alone : forall fuel slow fast,
    looks (p_find_middle fuel slow fast) (fun m => find_middle_loop fuel m slow fast).
  Proof.
    induction fuel as [|fuel IH]; intros slow fast m ss is; [reflexivity|]. cbn [p_find_middle find_middle_loop].
    drive ltac:(first [apply IH]).
  Qed.

  Lemma link_alone first curr p : changes (p_link first curr p) (fun m => link m first curr p).
  Proof. intros m ss is. unfold p_link, link. destruct curr; drive fail. Qed.

  Lemma merge_pointers_alone cmp : forall fuel first curr lower upper,
    changes (p_merge_pointers fuel cmp first curr lower upper) (fun m => merge_pointers fuel cmp m first curr lower upper).
  Proof.
    induction fuel as [|fuel IH]; intros first curr lower upper m ss is; [reflexivity|].
    cbn [p_merge_pointers merge_pointers]. destruct (negb (lower =? null) && negb (upper =? null)).
    - drive ltac:(first [rewrite link_alone | apply IH]).
    - drive ltac:(first [apply link_alone]).
  Qed.

  Lemma cut_alone middle lower : changes (p_cut middle lower)
    (fun m => do m1 <- set_next m middle null; Ok (m1, order m1 lower)).
  Proof.
    intros m ss is. unfold p_cut, set_next. cbn [alone object part w_pos w_st w_int].
    destruct (mread m middle) as [c| |]; cbn [rbind]; try reflexivity.
    destruct (mwrite m middle _); reflexivity.
  Qed.

  Lemma sort_pointers_alone cmp : forall fuel lower,
    changes (p_sort_pointers fuel cmp lower) (fun m => sort_pointers fuel order cmp m lower).
  Proof.
    induction fuel as [|fuel IH]; intros lower m ss is; [reflexivity|].
    cbn [p_sort_pointers sort_pointers]. unfold find_middle.
    drive ltac:(first [rewrite find_middle_alone | rewrite cut_alone | rewrite IH | apply merge_pointers_alone]).
  Qed.

  Lemma new_iterator_alone head : looks (p_new_iterator head) (fun m => new_iterator m head).
  Proof. intros m ss is. unfold p_new_iterator, new_iterator. drive fail. Qed.
  Lemma iterator_next_alone it : looks (p_iterator_next it) (fun m => iterator_next m it).
  Proof. intros m ss is. unfold p_iterator_next, iterator_next. cbv zeta. drive fail. Qed.

  Lemma iterator_remove_alone fuel head it outer : changes (p_iterator_remove fuel head it outer)
    (fun m => do (m1, h1, i1, o1) <- iterator_remove fuel m head it outer; Ok (m1, (h1, i1, o1))).
  Proof.
    intros m ss is. unfold p_iterator_remove, iterator_remove. destruct outer as [o|].
    - drive ltac:(first [rewrite state_remove_alone]).
    - drive ltac:(first [rewrite state_remove_alone]).
  Qed.

  Lemma insert_after_alone fuel head curr next :
    changes (p_insert_after fuel head curr next) (fun m => insert_after fuel m head curr next).
  Proof.
    intros m ss is. unfold p_insert_after, insert_after. destruct (curr =? null);
      [apply state_head_alone|apply state_insert_after_alone].
  Qed.

  Lemma merge_walk_alone alg a e : forall fuel iter p,
    looks (p_merge_walk fuel alg a iter e p) (fun m => merge_walk fuel alg m a iter e p).
  Proof.
    induction fuel as [|fuel IH]; intros iter p m ss is; [reflexivity|]. cbn [p_merge_walk merge_walk].
    drive ltac:(first [rewrite iterator_next_alone | apply IH]).
  Qed.

  Lemma merge_position_alone fuel alg head a :
    changes (p_merge_position fuel alg head a) (fun m => merge_position fuel alg m head a).
  Proof.
    intros m ss is. unfold p_merge_position, merge_position, state_begin, state_end.
    drive ltac:(first [rewrite new_iterator_alone | rewrite merge_walk_alone | apply insert_after_alone
                 | rewrite delete_position_alone | rewrite iterator_next_alone
                 | match goal with |- context [match alg with _ => _ end] => destruct alg end ]).
  Qed.

  Lemma merge_all_alone fuel alg : forall ps head,
    changes (p_merge_all fuel alg head ps) (fun m => merge_all fuel alg m head ps).
  Proof.
    induction ps as [|a ps IH]; intros head m ss is; [reflexivity|]. cbn [p_merge_all merge_all].
    drive ltac:(first [rewrite merge_position_alone | apply IH]).
  Qed.

  Lemma skip_walk_alone n e : forall fuel inner,
    looks (p_skip_walk fuel n inner e) (fun m => skip_walk fuel m n inner e).
  Proof.
    induction fuel as [|fuel IH]; intros inner m ss is; [reflexivity|]. cbn [p_skip_walk skip_walk].
    drive ltac:(first [rewrite iterator_next_alone | apply IH]).
  Qed.

  Lemma remove_walk_alone alg n outer e : forall fuel head oi inner, changes (p_remove_walk fuel alg n head outer oi inner e)
    (fun m => do (m1, h1, o1) <- remove_walk fuel alg n m head outer oi inner e; Ok (m1, (h1, o1))).
  Proof.
    induction fuel as [|fuel IH]; intros head oi inner m ss is; [reflexivity|]. cbn [p_remove_walk remove_walk].
    drive ltac:(first [rewrite iterator_remove_alone | rewrite iterator_next_alone | apply IH]).
  Qed.

  Lemma unsubsume_walk_alone alg n e : forall fuel head oi,
    changes (p_unsubsume_walk fuel alg n head oi e) (fun m => unsubsume_walk fuel alg n m head oi e).
  Proof.
    induction fuel as [|fuel IH]; intros head oi m ss is; [reflexivity|]. cbn [p_unsubsume_walk unsubsume_walk]. cbv zeta.
    drive ltac:(first [rewrite new_iterator_alone | rewrite iterator_next_alone | rewrite skip_walk_alone
                 | rewrite remove_walk_alone | apply IH]).
  Qed.

  Lemma unsubsume_alone fuel alg n head :
    changes (p_unsubsume_pointers fuel alg n head) (fun m => unsubsume_pointers fuel alg n m head).
  Proof.
    intros m ss is. unfold p_unsubsume_pointers, unsubsume_pointers, state_begin, state_end.
    drive ltac:(first [rewrite new_iterator_alone | apply unsubsume_walk_alone]).
  Qed.

  Lemma new_positions_alone : forall xs, changes (p_new_positions xs) (fun m => Ok (new_positions (a_pos al) m xs)).
  Proof.
    induction xs as [|x xs IH]; intros m ss is; [reflexivity|]. cbn [p_new_positions new_positions].
    rewrite alone_bind, new_position_alone. destruct (new_position (a_pos al) m x) as [p m1]. cbn [rbind].
    rewrite alone_bind, IH. cbn [rbind]. destruct (new_positions (a_pos al) m1 xs). reflexivity.
  Qed.

  Lemma transition_pointers_alone alg n p cv offset : changes (p_transition_pointers alg n p cv offset)
    (fun m => transition_pointers (a_pos al) alg n m p cv offset).
  Proof.
    intros m ss is. unfold p_transition_pointers, transition_pointers.
    drive ltac:(first [rewrite new_positions_alone]).
  Qed.

  Lemma transition_walk_alone alg n cv offset e : forall fuel head iter,
    changes (p_transition_walk fuel alg n cv offset head iter e)
      (fun m => transition_walk fuel (a_pos al) alg n cv offset m head iter e).
  Proof.
    induction fuel as [|fuel IH]; intros head iter m ss is; [reflexivity|].
    cbn [p_transition_walk transition_walk].
    drive ltac:(first [rewrite transition_pointers_alone | rewrite merge_all_alone
                 | rewrite iterator_next_alone | apply IH]).
  Qed.

  Lemma state_transition_alone fuel alg n len s cv m ss is :
    run_alone (p_state_transition fuel alg n len s cv) (World m ss is) =
    (do (m1, ss1, r) <- state_transition_pointers fuel (a_pos al) (a_st al) order alg n len m ss s cv;
     Ok (World m1 ss1 is, r)).
  Proof.
    unfold p_state_transition, state_transition_pointers, state_begin, state_end, destroy_state, state_sort, mnew.
    rewrite alone_bind, alone_read. cbn [object part w_st]. destruct (mread ss s) as [head| |]; cbn [rbind]; try reflexivity.
    rewrite alone_bind, get_pos_alone. destruct (get_pos m head) as [x| |]; cbn [rbind]; try reflexivity.
    rewrite alone_bind. cbn [alone object part w_st with_part w_pos w_int alloc rbind].
    drive ltac:(first [rewrite new_iterator_alone | rewrite transition_walk_alone | rewrite unsubsume_alone
                 | rewrite sort_pointers_alone | rewrite delete_position_alone
                 | progress (cbn [alone object part w_st with_part w_pos w_int])]).
  Qed.

  Lemma distance_walk_alone alg len e : forall fuel iter min,
    looks (p_distance_walk fuel alg len iter e min) (fun m => distance_walk fuel alg len m iter e min).
  Proof.
    induction fuel as [|fuel IH]; intros iter min m ss is; [reflexivity|]. cbn [p_distance_walk distance_walk]. cbv zeta.
    destruct (negb (iterator_eq iter e)); [|reflexivity].
    rewrite alone_bind, get_pos_alone. destruct (get_pos m (si_curr iter)) as [p| |]; cbn [rbind]; try reflexivity.
    rewrite alone_bind, iterator_next_alone. destruct (iterator_next m iter); cbn [rbind]; try reflexivity. apply IH.
  Qed.
  Lemma distance_alone fuel alg head len :
    looks (p_distance fuel alg head len) (fun m => distance_pointers fuel alg m head len).
  Proof.
    intros m ss is. unfold p_distance, distance_pointers, state_begin, state_end.
    drive ltac:(first [rewrite new_iterator_alone | apply distance_walk_alone]).
  Qed.

  (** ** The functions of ModelMemory *)
  Definition does {A} (p : program A) (f : world -> res (world * A)) : Prop :=
    forall w, run_alone p w = f w.

  Lemma delete_state_alone fuel s : does (p_delete_state fuel s) (fun w => do w1 <- delete_state fuel w s; Ok (w1, tt)).
  Proof.
    intros [m ss is]. unfold p_delete_state, delete_state, destroy_state. cbn [w_pos w_st w_int].
    destruct (s =? null); [reflexivity|]. rewrite alone_bind, alone_read. cbn [object part w_st].
    drive ltac:(first [rewrite delete_position_alone | progress (cbn [alone object part w_st with_part w_pos w_int])]).
  Qed.
  Lemma delete_intersection_alone fuel p :
    does (p_delete_intersection fuel p) (fun w => do w1 <- delete_intersection fuel w p; Ok (w1, tt)).
  Proof.
    intros [m ss is]. unfold p_delete_intersection, delete_intersection. cbn [w_pos w_st w_int].
    destruct (p =? null); [reflexivity|]. rewrite alone_bind, alone_read. cbn [object part w_int].
    drive ltac:(first [rewrite delete_state_alone | progress (cbn [alone object part w_st with_part w_pos w_int])]).
  Qed.
  Lemma delete_intersections_alone fuel : forall ps,
    does (p_delete_intersections fuel ps) (fun w => do w1 <- delete_intersections fuel w ps; Ok (w1, tt)).
  Proof.
    induction ps as [|p ps IH]; intros w; [reflexivity|]. cbn [p_delete_intersections delete_intersections].
    drive ltac:(first [rewrite delete_intersection_alone | rewrite IH]).
  Qed.

  Lemma intersection_str_alone : forall fuel p w,
    run_alone (p_intersection_str fuel p) w = (do s <- intersection_str fuel (w_int w) p; Ok (w, s)).
  Proof.
    induction fuel as [|fuel IH]; intros p w; [reflexivity|]. cbn [p_intersection_str intersection_str].
    rewrite alone_bind, alone_read. cbn [object part].
    drive ltac:(first [rewrite IH]).
  Qed.

  Section LazyQuery.
    Context {R : Type} (rt : result_type R).
    Variables (fuel : nat) (alg : algorithm) (term : str) (n : N).

    Lemma lazy_step_alone q : does (p_lazy_step rt fuel alg term n q)
      (fun w => do (b, w1, q1) <- lazy_step rt fuel al order h alg term n w q; Ok (w1, (b, q1))).
    Proof.
      intros [m ss is]. unfold p_lazy_step, lazy_step. cbv zeta. cbn [w_pos w_st w_int].
      destruct (l_edges q) as [|[label next] edges].
      - destruct (l_pending q) as [|p rest]; [reflexivity|]. rewrite alone_bind, (alone_read OfIntersection). cbn [object part w_int].
        destruct (mread is p) as [x| |]; cbn [rbind]; try reflexivity.
        rewrite alone_bind, (alone_read OfState). cbn [object part w_st].
        destruct (mread ss (ic_state x)) as [hd| |]; cbn [rbind]; try reflexivity.
        rewrite alone_bind, get_pos_alone. destruct (get_pos m hd); cbn [rbind]; try reflexivity.
        rewrite alone_bind, alone_node. destruct (read h (ic_node x)); reflexivity.
      - rewrite alone_bind, (alone_read OfIntersection). cbn [object part w_int].
        destruct (mread is (l_current q)) as [x| |]; cbn [rbind]; try reflexivity.
        rewrite alone_bind, alone_lift.
        destruct (characteristic_vector label term (l_k q) (l_i q)) as [cv| |]; cbn [rbind]; try reflexivity.
        rewrite alone_bind, state_transition_alone.
        destruct (state_transition_pointers _ _ _ _ _ _ _ _ _ _ _) as [[[m1 ss1] s]| |]; cbn [rbind]; try reflexivity.
        destruct (negb (s =? null)); [|reflexivity].
        rewrite alone_bind. cbn [alone object part w_int with_part w_pos w_st alloc rbind]. unfold new_intersection, mnew.
        cbn [w_pos w_st w_int].
        rewrite alone_bind, alone_node. destruct (read h next) as [nd| |]; cbn [rbind]; try reflexivity.
        destruct (nfin nd); [|reflexivity].
        rewrite alone_bind, (alone_read OfState). cbn [object part w_st].
        destruct (mread ss1 s) as [hd| |]; cbn [rbind]; try reflexivity.
        rewrite alone_bind, distance_alone. destruct (distance_pointers _ _ _ _ _) as [d| |]; cbn [rbind]; try reflexivity.
        destruct (d <=? n); [|reflexivity].
        rewrite alone_bind, intersection_str_alone. cbn [w_int].
        destruct (intersection_str _ _ _); reflexivity.
    Qed.

    Lemma lazy_loop_alone : forall rounds q, does (p_lazy_loop rt fuel alg term n rounds q)
      (fun w => lazy_loop rt fuel al order h alg term n rounds w q).
    Proof.
      induction rounds as [|rounds IH]; intros q w; [reflexivity|]. cbn [p_lazy_loop lazy_loop].
      rewrite alone_bind, lazy_step_alone.
      destruct (lazy_step _ _ _ _ _ _ _ _ _ _) as [[[b w1] q1]| |]; cbn [rbind]; try reflexivity.
      destruct b; [reflexivity|]. destruct (lazy_work q1); [apply IH|reflexivity].
    Qed.
    Lemma lazy_advance_alone q : does (p_lazy_advance rt fuel alg term n q)
      (fun w => lazy_advance rt fuel al order h alg term n w q).
    Proof.
      intros w. unfold p_lazy_advance, lazy_advance. destruct (lazy_work q); [apply lazy_loop_alone|reflexivity].
    Qed.
    Lemma lazy_begin_alone t : does (p_lazy_begin rt fuel alg term n t)
      (fun w => lazy_begin rt fuel al order h alg term n w t).
    Proof.
      intros w. unfold p_lazy_begin, lazy_begin. rewrite alone_bind, (alone_read OfIntersection). cbn [object part].
      destruct (mread (w_int w) t) as [x| |]; cbn [rbind]; try reflexivity.
      rewrite alone_bind, alone_node. destruct (read h (ic_node x)) as [nd| |]; cbn [rbind]; try reflexivity.
      destruct (nfin nd && (N.of_nat (length term) <=? n)); [reflexivity|apply lazy_advance_alone].
    Qed.
  End LazyQuery.

  Lemma run_one_alone {R} (rt : result_type R) fuel alg t c ss : does (p_run_one rt fuel alg t c ss)
    (fun w => run_one rt fuel al order h alg t c w ss).
  Proof.
    intros w. unfold p_run_one, run_one, lazy_destroy. destruct c as [q n|i|i].
    - rewrite alone_bind, lazy_begin_alone. destruct (lazy_begin _ _ _ _ _ _ _ _ _ _) as [[w1 it]| |]; reflexivity.
    - destruct (nth_error ss i) as [[[[[q n] k] it]|]|]; try reflexivity.
      rewrite alone_bind, lazy_advance_alone. destruct (lazy_advance _ _ _ _ _ _ _ _ _ _) as [[w1 it1]| |]; reflexivity.
    - destruct (nth_error ss i) as [[[[[q n] k] it]|]|]; try reflexivity.
      rewrite alone_bind, delete_intersections_alone. destruct (delete_intersections _ _ _); reflexivity.
  Qed.

  Lemma run_alone_ok {R} (rt : result_type R) fuel alg t : forall cs ss w,
    run_alone (p_run rt fuel alg t cs ss) w = run rt fuel al order h alg t cs w ss.
  Proof.
    induction cs as [|c cs IH]; intros ss w; [reflexivity|]. cbn [p_run run].
    rewrite alone_bind, run_one_alone. destruct (run_one _ _ _ _ _ _ _ _ _ _) as [[w1 ss1]| |]; cbn [rbind]; auto.
  Qed.
End Alone.
