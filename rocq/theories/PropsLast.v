(** * PropsLast: the last result of a query whose transducer is gone (C52). *)
From Coq Require Import Sorting.Sorted Sorting.Permutation.
From Verif Require Import Base Spec ModelTransducer ModelDawg ModelSerial ModelQuery ModelState ModelMemory SpecDawg SpecQuery
  SpecState SpecMemory TreeProofs HeapProofs DawgProofs QueryFacts MemoryProofs RunProofs GoneProofs LastProofs PropsState PropsDawg PropsQuery
  PropsMemory PropsOutlive.
Local Open Scope nat_scope.

(** The result [w] is empty, or a single character and there is a term that begins
    with a character after it. *)
Definition near_root (terms : list str) (w : str) : Prop :=
  w = [] \/ exists c c' t, w = [c] /\ In (c' :: t) terms /\ (schar c < schar c')%Z.

Lemma on_near_root : forall R (rt : result_type R) terms h root q w dist, unf h root (trie terms) -> on h root q -> q_candidate q = Some (w, dist) ->
  (near_root terms w -> at_root (qmap rt q) root) /\ (~ near_root terms w -> past (qmap rt q)).
Proof.
  intros R rt terms h root q w dist U O C. unfold on in O. rewrite C in O.
  destruct O as [(-> & F)|(Ch & i & seen & c & p & (Ci & Ri & nd & Rd & Ed) & ->)].
  - split; [intros _; left; exact F|]. intros X. destruct X. left. reflexivity.
  - destruct i as [r st|a nd0 st y].
    + pose proof (Ri r st eq_refl) as ->. cbn [i_str app i_node] in *.
      destruct (unf_read _ _ _ U) as (nd' & Rd' & _ & So & Us & _). rewrite Rd in Rd'. injection Rd' as <-.
      unfold esorted in So. rewrite Ed, <- app_assoc in So. cbn [app] in So.
      assert (So' : StronglySorted elt ((c, p) :: q_edges q)).
      { clear - So. induction seen; auto. inversion So; auto. }
      inversion So' as [|? ? _ Fa]; subst. rewrite Forall_forall in Fa.
      split; intros X.
      * destruct X as [X|(c0 & c' & t & X & I & Lt)]; [discriminate|]. injection X as <-.
        right. split; [|exists st; exact Ci]. change (q_edges (qmap rt q)) with (q_edges q).
        apply tin_trie in I. cbn [tin] in I. destruct (edge_get (tedges (trie terms)) c') as [t'|] eqn:G; [|discriminate].
        apply edge_get_In in G. destruct (unfs_In_r _ _ _ _ _ Us G) as (r & J & _). rewrite Ed, <- app_assoc in J. cbn [app] in J.
        intros En. rewrite En in J. apply in_app_or in J. destruct J as [J|[J|[]]].
        -- assert (Z : elt (c', r) (c, p)).
           { clear - So J. induction seen as [|e seen IH]; [destruct J|]. cbn [app] in So. inversion So as [|? ? S1 S2]; subst.
             destruct J as [->|J]; [|auto]. rewrite Forall_forall in S2. apply S2. apply in_or_app. right. left. reflexivity. }
           unfold elt in Z. cbn in Z. lia.
        -- injection J as -> _. lia.
      * split; [exact Ch|]. change (q_edges (qmap rt q)) with (q_edges q). intros Ne. exfalso. apply X. right.
        destruct (q_edges q) as [|[c' p'] es] eqn:Ee; [congruence|].
        assert (Z : elt (c, p) (c', p')) by (apply Fa; left; reflexivity). unfold elt in Z. cbn in Z.
        destruct (unfs_In h (nedges nd) (tedges (trie terms)) c' p' Us) as (t' & J & _).
        { rewrite Ed. apply in_or_app. right. left. reflexivity. }
        pose proof (trie_useful terms) as Uf. inversion Uf as [f es' F1 _ E]. rewrite <- E in J. cbn [tedges] in J.
        rewrite Forall_forall in F1. destruct (F1 _ J) as (v & Tv). cbn in Tv.
        exists c, c', v. split; [reflexivity|]. split; [|exact Z]. apply tin_trie. rewrite <- E. cbn [tin tedges].
        assert (Se : esorted es'). { pose proof (trie_sorted terms) as S. rewrite <- E in S. inversion S; auto. }
        rewrite (edge_In_get _ _ _ _ Se J). exact Tv.
    + split; intros X.
      * exfalso. destruct X as [X|(c0 & c' & t & X & _)]; cbn [i_str] in X.
        -- destruct (i_str y); discriminate.
        -- apply (f_equal (@length _)) in X. rewrite !app_length in X. cbn in X. lia.
      * split; [exact Ch|]. intros _. exists (ChildI a nd0 st y). split; [exact Ci|exact I].
Qed.

(** ** C52, concluded: the last result.

    An iterator that stands on its last result may be incremented although its
    transducer is gone, and is exhausted then, unless the transducer's root has to be
    looked at again: then it is undefined behaviour. *)
Definition finishing {R} (rt : result_type R) alg terms h (a : option (str * N * nat * query R)) (fuel : nat) : Prop :=
  match a with
  | None => True
  | Some (q, n, k, lit) => forall w dist, nth_error (scored alg terms q n) k = Some (w, dist) -> S k = length (scored alg terms q n) ->
      (near_root terms w -> forall al order w0 root os it, o_ptr root <> null -> mget (w_int w0) (o_ptr root) = None ->
         related root os it lit -> lazy_advance rt fuel al order h alg q n w0 it = UB) /\
      (~ near_root terms w -> forall al order w0 base root os rest it L, sound_allocators al -> owns w0 base (os ++ rest) ->
         o_ptr root <> null -> ic_parent (o_cell root) = null -> related root os it lit -> bounded L os -> L < fuel ->
         exists w' it' os' lit' L', lazy_advance rt fuel al order h alg q n w0 it = Ok (w', it') /\ owns w' base (os' ++ rest) /\
           related root os' it' lit' /\ bounded L' os' /\ L <= L' < fuel /\ q_complete lit' = true /\ q_candidate lit' = q_candidate lit)
  end.

Lemma all_finishing : forall R (rt : result_type R) alg terms h d a, dictionary terms h d -> right_place rt terms h d alg a ->
  exists N, forall fuel, N <= fuel -> finishing rt alg terms h a fuel.
Proof.
  intros R rt alg terms h d [[[[q n] k] lit]|] D RP; [|exists 0; intros; exact I]. destruct RP as (L & St).
  destruct (dictionary_unf _ _ _ D) as (U & _).
  destruct (nth_error (scored alg terms q n) k) as [[w dist]|] eqn:Nk; [|exists 0; intros fuel _ w dist E; congruence].
  destruct (Nat.eq_dec (S k) (length (scored alg terms q n))) as [Lk|Nl]; [|exists 0; intros fuel _ w0 d0 _ E; congruence].
  destruct (query_after_main _ plain alg terms h d q n k D L) as (lit0 & St0 & X). rewrite Nk in X. destruct X as [C0 K0].
  cbn [render plain r_update fst snd] in K0.
  assert (lit = qmap rt lit0) as -> by (eapply runs_to_det; [exact St|apply stands_qmap; exact St0]).
  assert (O : on h (d_root d) lit0).
  { destruct St0 as (M & E). apply (@after_where h alg q n (d_root d) M k lit0 (E M (le_n _)) C0). }
  destruct (on_near_root R rt terms h (d_root d) lit0 w dist U O K0) as [Near Far].
  destruct (query_after_main _ rt alg terms h d q n (S k) D L) as (lit1 & St1 & X1).
  assert (Nn : nth_error (scored alg terms q n) (S k) = None) by (apply nth_error_None; lia). rewrite Nn in X1. destruct X1 as [C1 K1].
  assert (Last : q_candidate lit1 = q_candidate (qmap rt lit0)).
  { rewrite K1. cbn [qmap q_candidate]. rewrite K0. cbn [shown]. apply nth_error_split in Nk. destruct Nk as (a & b & E & La).
    assert (b = []) as ->. { rewrite E, app_length in Lk. cbn in Lk. destruct b; auto. cbn in Lk. lia. }
    rewrite E, map_app. cbn [map]. rewrite last_last. reflexivity. }
  assert (Def : forall q n k, within_limits terms q n -> exists lit, stands_at rt alg h d q n k lit).
  { intros q0 n0 k0 L0. destruct (query_after_main _ rt alg terms h d q0 n0 k0 D L0) as (it & St2 & _). eauto. }
  destruct (RunProofs.step_stands Def St St1) as (f & Ad).
  assert (Dec : exists N, forall fuel, N <= fuel -> ~ near_root terms w -> forall al order w0 base root os rest it L, sound_allocators al -> owns w0 base (os ++ rest) ->
         o_ptr root <> null -> ic_parent (o_cell root) = null -> related root os it (qmap rt lit0) -> bounded L os -> L < fuel ->
         exists w' it' os' lit' L', lazy_advance rt fuel al order h alg q n w0 it = Ok (w', it') /\ owns w' base (os' ++ rest) /\
           related root os' it' lit' /\ bounded L' os' /\ L <= L' < fuel /\ q_complete lit' = true /\ q_candidate lit' = q_candidate (qmap rt lit0)).
  { assert (Past : exists N K, ~ near_root terms w -> forall al order fuel w0 base root os rest it L, sound_allocators al -> N <= fuel ->
      owns w0 base (os ++ rest) -> o_ptr root <> null -> ic_parent (o_cell root) = null -> related root os it (qmap rt lit0) -> bounded L os ->
      exists w' it' os', lazy_advance rt fuel al order h alg q n w0 it = Ok (w', it') /\
        owns w' base (os' ++ rest) /\ related root os' it' lit1 /\ bounded (Nat.max L K) os').
    { assert (Near2 : at_root (qmap rt lit0) (d_root d) \/ past (qmap rt lit0)).
      { unfold on in O. rewrite K0 in O. destruct O as [(_ & F)|(Ch & i & seen & c & p & (Ci & Ri & _) & _)]; [left; left; exact F|].
        destruct i as [r st|]; [|right; split; [exact Ch|]; intros _; eexists; split; [exact Ci|exact I]].
        pose proof (Ri r st eq_refl) as ->. destruct (q_edges lit0) as [|e es] eqn:Ee.
        - right. split; [exact Ch|]. cbn [qmap q_edges]. rewrite Ee. congruence.
        - left. right. split; [cbn [qmap q_edges]; rewrite Ee; discriminate|]. exists st. exact Ci. }
      destruct Near2 as [A|P].
      - exists 0, 0. intros X. exfalso. specialize (Far X). clear - A Far.
        destruct Far as [F1 F2]. destruct A as [(A1 & st & A2)|(A1 & st & A2)].
        + rewrite A2 in F1. inversion F1; subst. auto.
        + destruct (F2 A1) as (i & Ei & Ci). rewrite A2 in Ei. injection Ei as <-. exact Ci.
      - destruct (advance_past P Ad C1) as (N & K & S). exists N, K. intros _. exact S. }
    destruct Past as (N & K & S). exists (N + K + 1). intros fuel Hf X al order w0 base root os rest it L0 HA Ho Hn Hp Rel B Lf.
    destruct (S X al order fuel w0 base root os rest it L0) as (w' & it' & os' & E & Ho' & Rel' & B'); auto; [lia|].
    exists w', it', os', lit1, (Nat.max L0 K). repeat (split; [assumption|]). split; [lia|]. auto. }
  destruct Dec as (N & Dec). exists (N + 1). intros fuel Hf w' dist' E' _. assert (E : (w', dist') = (w, dist)) by congruence. injection E as -> ->.
  split; [|apply Dec; lia].
  intros X al order w0 root os it Hn Hg Rel. eapply advance_at_root; [apply Near, X|exact Hn|exact Hg|exact Rel|lia].
Qed.

Theorem C52_last : forall R (rt : result_type R) alg terms h d al order base commands,
  sound_allocators al -> dictionary terms h d ->
  (forall q n, In (Open q n) commands -> within_limits terms q n) ->
  exists enough, forall fuel, enough <= fuel ->
  exists w1 t w2 slots w3,
    make_transducer fuel al base (d_root d) = Ok (w1, t) /\
    run rt fuel al order h alg t commands w1 [] = Ok (w2, slots) /\
    destroy_transducer fuel w2 t = Ok w3 /\
    forall i q n k it strings w, nth_error slots i = Some (Some (q, n, k, it)) -> yields as_string alg h d q n strings ->
      nth_error strings k = Some w -> S k = length strings ->
      (near_root terms w -> forall al2, lazy_advance rt fuel al2 order h alg q n w3 it = UB) /\
      (~ near_root terms w -> forall al2, sound_allocators al2 -> exists w4 it' w5,
         lazy_advance rt fuel al2 order h alg q n w3 it = Ok (w4, it') /\
         l_complete it' = true /\ l_candidate it' = l_candidate it /\
         close_all fuel w4 (put slots i (Some (q, n, S k, it'))) = Ok w5 /\ same_memory w5 base).
Proof.
  intros R rt alg terms h d al order base cmds HA D HL.
  assert (Def : forall q n k, within_limits terms q n -> exists lit, stands_at rt alg h d q n k lit).
  { intros q n k L. destruct (query_after_main _ rt alg terms h d q n k D L) as (it & St & _). eauto. }
  destruct (@run_ok R rt terms h d alg Def cmds [] (Forall_nil _) HL) as (N & K & abs & HP & S).
  destruct (enough_for_all _ (finishing rt alg terms h) abs) as (N2 & En).
  { intros a Ia. rewrite Forall_forall in HP. eapply all_finishing; eauto. }
  exists (N + N2 + K + 3). intros fuel Hf.
  destruct (@make_transducer_ok al base (d_root d) fuel HA ltac:(lia)) as (w1 & root & E1 & O1 & De & Ll).
  destruct (S al order fuel w1 root w1 [] 0 HA ltac:(lia) (owns_get O1 (or_introl eq_refl)) De)
    as (w2 & ss & E2 & es & -> & -> & HG & O2 & Bd).
  { exact (inv_start w1 root). }
  { lia. }
  assert (O2' : owns w2 base (root :: owned es)).
  { eapply owns_perm; [|exact (owns_trans O1 O2)]. apply Permutation_sym, Permutation_cons_append. }
  destruct (@delete_own w2 base root (owned es) fuel O2' ltac:(lia)) as (w3 & E3 & O3).
  exists w1, (o_ptr root), w2, (map (@e_slot R) es), w3.
  repeat (split; [assumption|]).
  assert (Rr : o_ptr root <> null) by apply (owns_get O1 (or_introl eq_refl)).
  assert (Gr : mget (w_int w3) (o_ptr root) = None).
  { pose proof (gone w2 base [root] (owned es) w3 root O2' (or_introl eq_refl) O3) as X. unfold mread in X.
    destruct (N.eqb_spec (o_ptr root) null); [contradiction|]. destruct (mget (w_int w3) (o_ptr root)); [discriminate|reflexivity]. }
  assert (Pr : ic_parent (o_cell root) = null).
  { cbn [denotes] in De. destruct De as (o & [<-|[]] & _ & _ & P & _). exact P. }
  intros i q n k it strings w Ni Y Nw Lw.
  rewrite nth_error_map in Ni. destruct (nth_error es i) as [e|] eqn:Ne; [|discriminate]. injection Ni as Es.
  pose proof (nth_error_In _ _ Ne) as Ie. pose proof HG as HG'. rewrite Forall_forall in HG'. pose proof (HG' e Ie) as Ge. unfold good in Ge. rewrite Es in Ge.
  destruct (e_abs e) as [[[[q' n'] k'] lit]|] eqn:Ea; [|destruct Ge]. destruct Ge as (Eq & Rel). injection Eq as <- <- <-.
  assert (Ia : In (e_abs e) (map (@e_abs R) es)) by (apply in_map; exact Ie). rewrite Ea in Ia.
  assert (L : within_limits terms q n).
  { rewrite Forall_forall in HP. apply (HP _ Ia). }
  pose proof (yields_det _ _ _ _ _ _ _ _ _ Y (query_all_main _ as_string alg terms h d q n D L)) as ->. rewrite map_length in Lw.
  rewrite nth_error_map in Nw. destruct (nth_error (scored alg terms q n) k) as [[w' dist]|] eqn:Nk; [|discriminate].
  cbn in Nw. injection Nw as ->.
  destruct (En _ Ia fuel ltac:(lia) w dist Nk Lw) as (X1 & X2). split.
  - intros X al2. exact (X1 X al2 order w3 root (e_own e) it Rr Gr Rel).
  - intros X al2 HA2. apply nth_error_split in Ne. destruct Ne as (a & b & -> & La).
    assert (O3' : owns w3 base (e_own e ++ owned (a ++ b))) by (eapply owns_perm; [apply owned_middle|exact O3]).
    assert (Bd' : bounded (Nat.max 0 K) (e_own e) /\ bounded (Nat.max 0 K) (owned (a ++ b))).
    { apply bounded_app. intros o Ho. apply Bd. eapply Permutation_in; [apply Permutation_sym, owned_middle|exact Ho]. }
    destruct Bd' as [B1 B2].
    destruct (X2 X al2 order w3 base root (e_own e) (owned (a ++ b)) it (Nat.max 0 K) HA2 O3' Rr Pr Rel B1 ltac:(lia))
      as (w4 & it' & os' & lit' & L' & Ad & O4 & Rel' & B' & HL' & C' & K').
    set (e' := Entry os' (Some (q, n, Datatypes.S k, it')) (Some (q, n, Datatypes.S k, lit'))).
    assert (O4' : owns w4 base (owned (a ++ e' :: b))).
    { eapply owns_perm; [apply Permutation_sym, owned_middle|exact O4]. }
    destruct (@close_all_ok R fuel base root L' (a ++ e' :: b) ltac:(lia) w4) as (w5 & E5 & O5); auto.
    { apply Forall_app in HG. destruct HG as [H1 H2]. inversion H2; subst. apply Forall_app. split; auto. constructor; auto. split; auto. }
    { intros o Ho. apply (Permutation_in _ (owned_middle a e' b)) in Ho. apply in_app_or in Ho. destruct Ho as [Ho|Ho]; [apply B'; exact Ho|].
      specialize (B2 o Ho). lia. }
    exists w4, it', w5. split; [exact Ad|]. destruct Rel' as [? ? ? r4 ? r6 ? ? ?]. split; [congruence|].
    split; [rewrite r6, K'; symmetry; apply (rel_candidate Rel)|].
    rewrite <- La. change (Some (q, n, Datatypes.S k, it')) with (e_slot e'). rewrite (@put_abs R (a ++ e :: b) a e b e' eq_refl). split; [exact E5|]. now apply owns_same.
Qed.
Print Assumptions C52_last.

(** A query for "a" stands on its last result, "a", and there are terms that begin
    with "c"; a query for "cab" stands on its last result, "cab". *)
Example C52_last_case : sound_allocators sound_bump /\ dictionary some_terms example_heap example_dawg /\
  (forall q n, In (Open q n) [Open sa 0; Open scab 0] -> within_limits some_terms q n) /\
  yields as_string STANDARD example_heap example_dawg sa 0 [sa] /\ near_root some_terms sa /\
  yields as_string STANDARD example_heap example_dawg scab 0 [scab] /\ ~ near_root some_terms scab /\
  exists w1 t w2 it1 it2 w3 w4 it',
    make_transducer 60 sound_bump no_objects (d_root example_dawg) = Ok (w1, t) /\
    run as_string 60 sound_bump left_first example_heap STANDARD t [Open sa 0; Open scab 0] w1 [] =
      Ok (w2, [Some (sa, 0%N, 0, it1); Some (scab, 0%N, 0, it2)]) /\
    destroy_transducer 60 w2 t = Ok w3 /\
    lazy_advance as_string 60 sound_bump left_first example_heap STANDARD sa 0 w3 it1 = UB /\
    lazy_advance as_string 60 sound_bump left_first example_heap STANDARD scab 0 w3 it2 = Ok (w4, it').
Proof.
  assert (Lim : forall q n, In (Open q n) [Open sa 0; Open scab 0] -> within_limits some_terms q n).
  { intros q n [E|[E|[]]]; injection E as <- <-; (split; [apply manageable_short; vm_compute; discriminate|]; split; [vm_compute; discriminate|]);
      intros t [<-|[<-|[<-|[<-|[]]]]]; vm_compute; reflexivity. }
  split; [exact sound_allocators_bump|]. split; [exact example_dictionary|]. split; [exact Lim|].
  assert (Y : forall q, In (Open q 0) [Open sa 0; Open scab 0] -> forall r, scored STANDARD some_terms q 0 = [(r, 0%N)] ->
    yields as_string STANDARD example_heap example_dawg q 0 [r]).
  { intros q I r E. pose proof (query_all_main _ as_string STANDARD some_terms example_heap example_dawg q 0 example_dictionary (Lim _ _ I)) as Y.
    rewrite E in Y. exact Y. }
  split; [apply Y; [left; reflexivity|vm_compute; reflexivity]|].
  split. { right. exists "a"%char, "c"%char, (tl scb). split; [reflexivity|]. split; [vm_compute; tauto|vm_compute; reflexivity]. }
  split; [apply Y; [right; left; reflexivity|vm_compute; reflexivity]|].
  split. { intros [X|(c & c' & t & X & _)]; discriminate. }
  eexists _, _, _, _, _, _, _, _. split; [vm_compute; reflexivity|]. split; [vm_compute; reflexivity|]. split; [vm_compute; reflexivity|].
  split; vm_compute; reflexivity.
Qed.
