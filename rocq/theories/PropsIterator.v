(** * Property C53: iterators over a dictionary, any number at a time. *)
From Coq Require Import Permutation.
From Verif Require Import Base Spec ModelTransducer ModelDawg ModelState ModelIterator SpecIterator.
From Verif Require Import SpecDawg SpecQuery TreeProofs HeapProofs IterProofs PointerProofs MemoryProofs IteratorProofs.
From Verif Require Import QueryFacts PropsState PropsDawg PropsQuery.
Local Open Scope nat_scope.

Section Cursors.
  Variables (alloc : mem pcell -> ptr) (h : heap) (d : dawg) (t : tree).
  Hypothesis HA : mallocator alloc.
  Hypothesis U : unf h (d_root d) t.

  Let listing := words t.
  Let B := tsize t.

  Definition right_cursor (os : list (ptr * pcell)) (c : cursor) : Prop :=
    match c with
    | None => os = []
    | Some (k, it) => (exists q, going h os it q B /\ enum q = skipn (S k) listing) /\
        di_value it = nth k listing (last listing []) /\ di_index it = (N.of_nat k mod 2 ^ 64)%N
    end.

  Definition cinv (base m : mem pcell) (cs : list cursor) : Prop :=
    exists es : list (list (ptr * pcell) * cursor), cs = map snd es /\
      Forall (fun e => right_cursor (fst e) (snd e)) es /\ adds m base (concat (map fst es)).

  Lemma nth_error_split' {A X} (f : A -> X) l i y : nth_error (map f l) i = Some y ->
    exists a x b, l = a ++ x :: b /\ length a = i /\ f x = y.
  Proof.
    revert i. induction l as [|x l IH]; intros i H; [destruct i; discriminate|]. destruct i as [|i].
    - cbn in H. injection H as <-. exists [], x, l. auto.
    - cbn in H. destruct (IH i H) as (a & x' & b & -> & E & F). exists (x :: a), x', b.
      cbn. rewrite E. auto.
  Qed.

  Lemma place_app (a b : list cursor) x y : place (a ++ x :: b) (length a) y = a ++ y :: b.
  Proof. induction a as [|z a IH]; cbn; [reflexivity|]. now rewrite IH. Qed.

  Lemma concat_middle {X} (a b : list (list X)) x :
    Permutation (concat (a ++ x :: b)) (x ++ concat (a ++ b)).
  Proof. rewrite !concat_app. cbn. apply Permutation_app_swap_app. Qed.

  Lemma nth_skip (l : list str) k x : nth k l x = match skipn k l with [] => x | y :: _ => y end.
  Proof. revert k. induction l as [|y l IH]; intros [|k]; cbn; auto. Qed.

  Lemma last_nth (l : list str) k x : skipn (S k) l = [] -> nth k l (last l x) = last l x.
  Proof.
    revert k. induction l as [|y l IH]; intros k H; [destruct k; reflexivity|].
    destruct k as [|k].
    - cbn in H. subst l. reflexivity.
    - change (skipn (S (S k)) (y :: l)) with (skipn (S k) l) in H.
      destruct l as [|z l]; [destruct k; reflexivity|].
      change (last (y :: z :: l) x) with (last (z :: l) x). cbn [nth]. apply IH. exact H.
  Qed.

  Lemma words_step k : nth (S k) listing (last listing []) = next_value (nth k listing (last listing [])) (skipn (S k) listing).
  Proof.
    rewrite nth_skip. destruct (skipn (S k) listing) as [|y l] eqn:E; cbn [next_value]; [|reflexivity].
    symmetry. now apply last_nth.
  Qed.

  Lemma skipn_tl {X} k (l : list X) : skipn (S k) l = tl (skipn k l).
  Proof. revert l. induction k as [|k IH]; intros [|x l]; auto. cbn [skipn] in *. apply IH. Qed.

  Lemma iteration_step_ok fuel base x m cs : B + 1 < fuel -> cinv base m cs ->
    exists m' cs', iteration_step fuel alloc h d x m cs = Ok (m', cs') /\ cinv base m' cs'.
  Proof using HA U.
    intros Hf (es & -> & HG & Ha). destruct x as [|i|i]; cbn [iteration_step].
    - unfold diter_begin.
      destruct (mget_mnew m (PCell (d_root d) null Ascii.zero) HA) as (p & m1 & E & G1 & G2 & G3 & G4 & G5).
      rewrite E. set (o := (p, PCell (d_root d) null Ascii.zero)).
      assert (Ha1 : adds m1 base ([o] ++ concat (map fst es))) by (cbn; eapply adds_one; eauto).
      destruct (@diter_advance_ok alloc h HA base (concat (map fst es)) B fuel m1 [o] (DIter [p] [p] [] 0) [([], t)] Ha1)
        as (m2 & os & it & q & E2 & Ha2 & Gq & Ix & V & En); [|lia|].
      { constructor; cbn; auto.
        - constructor; [|constructor]. exists (d_root d). split; [|exact U]. cbn.
          eapply spells_root. left. reflexivity.
        - constructor; [cbn; fold B; lia|constructor].
        - unfold qsize. cbn. fold B. lia. }
      rewrite E2. cbn [rbind]. eexists _, _. split; [reflexivity|].
      exists (es ++ [(os, Some (0, it))]). split; [now rewrite map_app|]. split.
      + apply Forall_app. split; [exact HG|]. constructor; [|constructor]. cbn [fst snd right_cursor].
        split; [exists q; split; [exact Gq|]|].
        * change (enum [([], t)]) with listing in En. rewrite En. symmetry. apply (skipn_tl 0).
        * rewrite V, Ix. split; [|reflexivity]. change (enum [([], t)]) with listing. cbn [di_value].
          generalize listing. intros [|? ?]; reflexivity.
      + rewrite map_app, concat_app. cbn [map fst concat]. rewrite app_nil_r.
        eapply adds_perm; [apply Permutation_app_comm|]. exact Ha2.
    - destruct (nth_error (map snd es) i) as [[[k it]|]|] eqn:Ei;
        [|eexists _, _; split; [reflexivity|exists es; auto]|eexists _, _; split; [reflexivity|exists es; auto]].
      destruct (nth_error_split' _ _ _ _ Ei) as (a & [os c] & b & -> & <- & Ec). cbn [snd] in Ec. subst c.
      apply Forall_app in HG. destruct HG as [HG1 HG2]. inversion HG2 as [|? ? G HG3]; subst. cbn [fst snd] in G.
      destruct G as ((q & Gq & En) & V & Ix).
      rewrite map_app in Ha. cbn [map fst] in Ha. apply (adds_perm (concat_middle _ _ _)) in Ha.
      destruct (@diter_advance_ok alloc h HA base _ B fuel m os it q Ha Gq ltac:(lia))
        as (m2 & os2 & it2 & q2 & E2 & Ha2 & Gq2 & Ix2 & V2 & En2).
      unfold diter_next. rewrite E2. cbn [rbind]. eexists _, _. split; [reflexivity|].
      set (it3 := DIter (di_prefixes it2) (di_pending it2) (di_value it2) (wadd (di_index it2) 1)).
      exists (a ++ (os2, Some (S k, it3)) :: b). split.
      { rewrite !map_app. cbn [map snd]. rewrite <- (map_length snd a). apply place_app. }
      split.
      + apply Forall_app. split; [exact HG1|]. constructor; [|exact HG3]. cbn [fst snd right_cursor].
        split; [exists q2; split|].
        * destruct Gq2. constructor; cbn; auto.
        * rewrite En2, En. symmetry. apply skipn_tl.
        * cbn. rewrite V2, V, En, Ix2, Ix. split; [symmetry; apply words_step|].
          unfold wadd. change Base.W with (2 ^ 64)%N. rewrite N.add_mod_idemp_l by discriminate. f_equal. lia.
      + rewrite map_app. cbn [map fst]. eapply adds_perm; [apply Permutation_sym, concat_middle|]. exact Ha2.
    - destruct (nth_error (map snd es) i) as [[[k it]|]|] eqn:Ei;
        [|eexists _, _; split; [reflexivity|exists es; auto]|eexists _, _; split; [reflexivity|exists es; auto]].
      destruct (nth_error_split' _ _ _ _ Ei) as (a & [os c] & b & -> & <- & Ec). cbn [snd] in Ec. subst c.
      apply Forall_app in HG. destruct HG as [HG1 HG2]. inversion HG2 as [|? ? G HG3]; subst. cbn [fst snd] in G.
      destruct G as ((q & Gq & En) & V & Ix).
      rewrite map_app in Ha. cbn [map fst] in Ha. apply (adds_perm (concat_middle _ _ _)) in Ha.
      destruct (@delete_prefixes_ok base _ os m Ha) as (m2 & E2 & Ha2).
      unfold diter_destroy. rewrite (go_own Gq), E2. cbn [rbind]. eexists _, _. split; [reflexivity|].
      exists (a ++ ([], None) :: b). split.
      { rewrite !map_app. cbn [map snd]. rewrite <- (map_length snd a). apply place_app. }
      split.
      + apply Forall_app. split; [exact HG1|]. constructor; [reflexivity|exact HG3].
      + rewrite map_app. cbn [map fst]. eapply adds_perm; [apply Permutation_sym, concat_middle|]. exact Ha2.
  Qed.

  Lemma iterations_ok fuel base xs : B + 1 < fuel -> forall m cs, cinv base m cs ->
    exists m' cs', iterations fuel alloc h d xs m cs = Ok (m', cs') /\ cinv base m' cs'.
  Proof using HA U.
    intros Hf. induction xs as [|x xs IH]; intros m cs I; cbn [iterations]; [eauto|].
    destruct (iteration_step_ok fuel base x m cs Hf I) as (m1 & cs1 & E & I1). rewrite E. cbn [rbind]. auto.
  Qed.

  Lemma drop_all_ok base : forall cs m, cinv base m cs ->
    exists m', drop_all m cs = Ok m' /\ forall p, mget m' p = mget base p.
  Proof.
    induction cs as [|c cs IH]; intros m (es & E & HG & Ha).
    - destruct es; [|discriminate]. exists m. split; [reflexivity|]. now apply (adds_same Ha).
    - destruct es as [|[os c'] es]; [discriminate|]. cbn in E. injection E as <- ->.
      inversion HG as [|? ? G HG']; subst. cbn [fst snd] in G. cbn [map fst concat] in Ha. cbn [drop_all].
      destruct c as [[k it]|].
      + destruct G as ((q & Gq & _) & _). unfold diter_destroy. rewrite (go_own Gq).
        destruct (delete_prefixes_ok Ha) as (m1 & E1 & Ha1). rewrite E1. cbn [rbind].
        apply IH. exists es. auto.
      + cbn in G. subst os. apply IH. exists es. auto.
  Qed.
End Cursors.

(** ** C53: iterators over a dictionary

    Iterators are begun, incremented (also beyond the end) and destroyed in any
    order, and what remains is destroyed at the end.  This terminates without
    undefined behaviour.  At every moment every iterator shows the term of its
    place in the listing of the dictionary (the last one when it has gone
    beyond), and it equals end() when it has been incremented size() times and
    not before.  Nothing that was allocated before is changed, and at the end
    exactly that is allocated. *)
Theorem C53_iterators : forall alloc terms h d base commands, mallocator alloc -> dictionary terms h d ->
  exists listed, (forall w, In w listed <-> In w terms) /\ sorted_by shortlex_lt listed /\
  exists enough, forall fuel, enough <= fuel ->
  exists m cursors m',
    iterations fuel alloc h d commands base [] = Ok (m, cursors) /\
    (forall i k it, nth_error cursors i = Some (Some (k, it)) ->
       di_value it = nth k listed (last listed []) /\
       (N.of_nat (length terms) < 2 ^ 64 -> N.of_nat k < 2 ^ 64 ->
        (diter_eq it (diter_end d) = true <-> k = length terms))%N) /\
    (forall p x, mget base p = Some x -> mget m p = Some x) /\
    drop_all m cursors = Ok m' /\ (forall p, mget m' p = mget base p).
Proof.
  intros alloc terms h d base cmds HA D. destruct (dictionary_unf _ _ _ D) as (U & As & Sz).
  pose proof (trie_sorted terms) as TS.
  exists (words (trie terms)). split; [intros w; rewrite words_In by auto; apply tin_trie|].
  split; [apply StronglySorted_sorted_by, words_sorted; auto|].
  exists (tsize (trie terms) + 2). intros fuel Hf.
  assert (I0 : cinv h (trie terms) base base []).
  { exists []. split; [reflexivity|]. split; [constructor|]. apply adds_nil, alike_refl. }
  destruct (iterations_ok alloc h d (trie terms) HA U fuel base cmds ltac:(lia) base [] I0) as (m & cs & E & I).
  destruct (drop_all_ok h (trie terms) base cs m I) as (m' & E' & Sm).
  exists m, cs, m'. split; [exact E|]. split; [|split; [|auto]].
  - intros i k it Hi. destruct I as (es & -> & HG & _).
    destruct (nth_error_split' _ _ _ _ Hi) as (a & [os c] & b & -> & _ & Ec). cbn [snd] in Ec. subst c.
    rewrite Forall_forall in HG. specialize (HG _ (in_elt _ _ _)). cbn in HG.
    destruct HG as (_ & V & Ix). split; [exact V|]. intros L1 L2. unfold diter_eq, diter_end. cbn [di_index].
    rewrite Ix, Sz. change Base.W with (2 ^ 64)%N. rewrite !N.mod_small by assumption. rewrite N.eqb_eq. lia.
  - intros p x G. destruct I as (es & _ & _ & Ha). eapply adds_preserved; eauto.
Qed.
Print Assumptions C53_iterators.

(** Two iterators over {a, ab, cab, cb}. *)
Example C53_case : mallocator (@bump pcell) /\ dictionary some_terms example_heap example_dawg /\
  exists m it,
    iterations 30 bump example_heap example_dawg [Begin; Next 0; Begin; Next 0; Next 1; Drop 0] [] [] =
      Ok (m, [None; Some (1, it)]) /\
    di_value it = sab /\ diter_eq it (diter_end example_dawg) = false /\ length (in_use m) = 6 /\
    (exists m', drop_all m [None; Some (1, it)] = Ok m' /\ in_use m' = []).
Proof.
  split; [apply mallocator_bump|]. split; [exact example_dictionary|].
  eexists _, _. run. run. run. run. eexists. run. vm_compute. reflexivity.
Qed.

(** An iterator must not be copied (see C51): the copy holds the same prefixes,
    and destroying both releases them twice. *)
Theorem C53_copy_refuted : forall alloc terms h d base, mallocator alloc -> dictionary terms h d ->
  exists enough, forall fuel, enough <= fuel ->
  exists m it copy m', diter_begin fuel alloc h base d = Ok (m, it) /\ copy = it /\
    diter_destroy m it = Ok m' /\ diter_destroy m' copy = UB.
Proof.
  intros alloc terms h d base HA D. destruct (dictionary_unf _ _ _ D) as (U & As & Sz).
  exists (tsize (trie terms) + 2). intros fuel Hf. unfold diter_begin.
  destruct (mget_mnew base (PCell (d_root d) null Ascii.zero) HA) as (p & m1 & E & G1 & G2 & G3 & G4 & G5).
  rewrite E. set (o := (p, PCell (d_root d) null Ascii.zero)).
  assert (Ha1 : adds m1 base ([o] ++ [])).
  { cbn. eapply adds_one; eauto. apply adds_nil, alike_refl. }
  destruct (@diter_advance_ok alloc h HA base [] (tsize (trie terms)) fuel m1 [o] (DIter [p] [p] [] 0) [([], trie terms)] Ha1)
    as (m2 & os & it & q & E2 & Ha2 & Gq & _); [|lia|].
  { constructor; cbn; auto.
    - constructor; [|constructor]. exists (d_root d). split; [|exact U]. cbn.
      eapply spells_root. left. reflexivity.
    - constructor; [cbn; lia|constructor].
    - unfold qsize. cbn. lia. }
  destruct (delete_prefixes_ok Ha2) as (m3 & E3 & Ha3).
  exists m2, it, it, m3. split; [exact E2|]. split; [reflexivity|].
  unfold diter_destroy. rewrite (go_own Gq). split; [exact E3|].
  assert (Ne : os <> []).
  { unfold diter_advance in E2. cbn [di_pending di_prefixes] in E2. intros ->. destruct Gq as [g1 _ _ _]. cbn in g1.
    destruct (diter_loop alloc h fuel m1 [p] [p]) as [[[[[m4 ps] pe] px] nd]| |] eqn:El; try discriminate.
    assert (Hps : incl [p] ps); [|specialize (Hps p (or_introl eq_refl));
      cbn [rbind] in E2; destruct (nfin nd);
      [destruct (pcell_str fuel m4 px); try discriminate|]; cbn in E2; injection E2 as _ <-; cbn in g1; subst ps; destruct Hps].
    clear - El. assert (K : forall f m a b m4 ps pe px nd, diter_loop alloc h f m a b = Ok (m4, ps, pe, px, nd) -> incl a ps).
    { clear. assert (P : forall es m pre a b m1 a1 b1, push_children alloc m pre es a b = (m1, a1, b1) -> incl a a1).
      { induction es as [|[c0 t0] es IH]; intros m pre a b m1 a1 b1 H; cbn in H.
        - injection H as _ <- _. apply incl_refl.
        - apply IH in H. intros x Hx. apply H. apply in_or_app. now left. }
      induction f as [|f IH]; intros m a b m4 ps pe px nd H; [discriminate|]. cbn in H.
      destruct b as [|b0 b]; [discriminate|]. destruct (mread m b0) as [x| |]; try discriminate. cbn in H.
      destruct (read h (pc_node x)) as [n| |]; try discriminate. cbn in H.
      destruct (push_children alloc m b0 (nedges n) a b) as [[m1 a1] b1] eqn:Ep. apply P in Ep.
      destruct (nfin n); [injection H as _ <- _ _ _; exact Ep|].
      destruct b1; [injection H as _ <- _ _ _; exact Ep|].
      apply IH in H. intros y Hy. apply H, Ep, Hy. }
    eapply K; eauto. }
  destruct os as [|[p0 x0] os]; [contradiction|]. cbn [map fst delete_prefixes].
  destruct (adds_get Ha2 (or_introl eq_refl)) as [G _]. destruct (N.eqb_spec p0 null); [contradiction|].
  unfold mfree, mread. destruct (N.eqb_spec p0 null); [contradiction|].
  rewrite (proj1 (adds_same Ha3) p0). destruct Ha2 as (_ & I2 & _).
  destruct (I2 p0 x0 (or_introl eq_refl)) as (_ & -> & _). reflexivity.
Qed.
Print Assumptions C53_copy_refuted.
