(** * LastProofs: the last result of a query whose transducer is gone. *)
From Coq Require Import Sorting.Sorted Permutation.
From Verif Require Import Base Spec ModelTransducer ModelDawg ModelQuery ModelState ModelMemory.
From Verif Require Import SpecState SpecDawg SpecQuery SpecMemory PointerProofs TreeProofs HeapProofs QueryFacts MemoryProofs RunProofs GoneProofs.
Local Open Scope nat_scope.
Set Implicit Arguments.
Unset Strict Implicit.

(** ** Queries that remember what they yield *)
Definition plain : result_type (option (str * N)) := ResultType None (fun w d => Some (w, d)).

Section Plain.
  Context {R : Type} (rt : result_type R).
  Variables (h : heap) (alg : algorithm) (term : str) (n : N).

  Definition shown (c : option (str * N)) : R := match c with None => r_default rt | Some (w, d) => r_update rt w d end.
  Definition qmap (q : query (option (str * N))) : query R :=
    Query (q_pending q) (q_edges q) (q_complete q) (q_current q) (shown (q_candidate q)) (q_k q) (q_i q).
  Definition rmap {A B} (f : A -> B) (r : res A) : res B := match r with Ok a => Ok (f a) | UB => UB | OOF => OOF end.

  Lemma step_qmap q : advance_step rt h alg term n (qmap q) = rmap (fun bq => (fst bq, qmap (snd bq))) (advance_step plain h alg term n q).
  Proof.
    unfold advance_step. cbn [qmap q_edges q_pending q_current q_k q_i q_complete q_candidate].
    destruct (q_edges q) as [|[c next] edges].
    - destruct (q_pending q) as [|x rest]; [reflexivity|]. destruct (i_state x); [reflexivity|].
      destruct (read h (i_node x)); reflexivity.
    - destruct (deref (q_current q)); cbn [rbind]; try reflexivity.
      destruct (characteristic_vector _ _ _ _); cbn [rbind]; try reflexivity.
      destruct (state_transition _ _ _ _ _) as [[st|]| |]; cbn [rbind]; try reflexivity.
      destruct (read h next) as [nd| |]; cbn [rbind]; try reflexivity.
      destruct (nfin nd); [destruct (_ <=? _)%N|]; reflexivity.
  Qed.

  Lemma loop_qmap f : forall q, advance_query_loop rt h alg term n f (qmap q) = rmap qmap (advance_query_loop plain h alg term n f q).
  Proof.
    induction f as [|f IH]; intros q; [reflexivity|]. cbn [advance_query_loop]. rewrite step_qmap.
    destruct (advance_step plain h alg term n q) as [[b q1]| |]; cbn [rmap rbind fst snd]; try reflexivity.
    destruct b; [reflexivity|]. change (has_work (qmap q1)) with (has_work q1). destruct (has_work q1); [apply IH|reflexivity].
  Qed.

  Lemma advance_qmap f q : advance_query rt h alg term n f (qmap q) = rmap qmap (advance_query plain h alg term n f q).
  Proof.
    unfold advance_query. change (has_work (qmap q)) with (has_work q). destruct (has_work q); [|reflexivity].
    change (set_complete (qmap q)) with (qmap (set_complete q)). apply loop_qmap.
  Qed.

  Lemma increments_qmap f k : forall q, increments rt h alg term n f k (qmap q) = rmap qmap (increments plain h alg term n f k q).
  Proof.
    induction k as [|k IH]; intros q; [reflexivity|]. cbn [increments]. rewrite advance_qmap.
    destruct (advance_query plain h alg term n f q); cbn [rmap rbind]; auto.
  Qed.

  Lemma stands_qmap d k it : stands_at plain alg h d term n k it -> stands_at rt alg h d term n k (qmap it).
  Proof.
    intros (M & E). exists M. intros fuel Hf. specialize (E fuel Hf). unfold query_after, begin_query, new_query in *.
    cbn [tr_alg tr_root new_transducer] in *. destruct (read h _) as [nd| |]; cbn [rbind] in *; try discriminate.
    destruct (nfin nd && _)%bool; cbn [rbind] in *.
    - match type of E with increments _ _ _ _ _ _ _ ?q = _ =>
        change (increments rt h alg term n fuel k (qmap q) = Ok (qmap it)) end.
      rewrite increments_qmap, E. reflexivity.
    - match type of E with rbind (advance_query _ _ _ _ _ _ ?q) _ = _ =>
        change (rbind (advance_query rt h alg term n fuel (qmap q)) (fun z => increments rt h alg term n fuel k z) = Ok (qmap it));
        rewrite advance_qmap; destruct (advance_query plain h alg term n fuel q) as [q1| |] eqn:E1 end;
        cbn [rbind rmap] in *; try discriminate.
      rewrite increments_qmap, E. reflexivity.
  Qed.
End Plain.

(** ** Where a query stands when it shows a result *)
Definition is_child (x : intersection) : Prop := match x with RootI _ _ => False | ChildI _ _ _ _ => True end.

Section Where.
  Variables (h : heap) (alg : algorithm) (term : str) (n : N) (root : ptr).
  Notation qu := (query (option (str * N))).

  (** The current intersection and the edges that are left. *)
  Definition amid (q : qu) (i : intersection) (seen : list (char * ptr)) : Prop :=
    q_current q = Some i /\ (forall r st, i = RootI r st -> r = root) /\
    exists nd, read h (i_node i) = Ok nd /\ nedges nd = seen ++ q_edges q.

  Definition fresh (q : qu) : Prop := q_edges q = [] /\ exists st, q_pending q = [RootI root st].
  Definition going (q : qu) : Prop := Forall is_child (q_pending q) /\ (q_edges q <> [] -> exists i seen, amid q i seen).
  Definition on (q : qu) : Prop :=
    match q_candidate q with
    | None => False
    | Some (w, _) => (w = [] /\ fresh q) \/
        (Forall is_child (q_pending q) /\ exists i seen c p, amid q i (seen ++ [(c, p)]) /\ w = i_str i ++ [c])
    end.

  Lemma step_where q b q' : fresh q \/ going q -> advance_step plain h alg term n q = Ok (b, q') ->
    going q' /\ (b = true -> on q').
  Proof.
    intros W E. unfold advance_step in E. destruct (q_edges q) as [|[c next] edges] eqn:Ee.
    - destruct (q_pending q) as [|x rest] eqn:Ep; [discriminate|]. destruct (i_state x); [discriminate|].
      destruct (read h (i_node x)) as [nd| |] eqn:Er; cbn [rbind] in E; try discriminate. injection E as <- <-.
      split; [|discriminate]. assert (X : Forall is_child rest /\ forall r st, x = RootI r st -> r = root).
      { destruct W as [(_ & st & W)|(W & _)].
        - rewrite Ep in W. injection W as -> ->. split; [constructor|]. intros r st0 Ex. injection Ex as ->. reflexivity.
        - rewrite Ep in W. inversion W as [|? ? W1 W2]; subst. split; auto. intros r st ->. destruct W1. }
      destruct X as [X1 X2]. split; cbn [q_pending q_edges]; auto. intros _. exists x, []. split; [reflexivity|]. split; auto.
      exists nd. split; auto.
    - assert (G : going q) by (destruct W as [(W & _)|W]; [congruence|exact W]). destruct G as [G1 G2].
      destruct (G2 ltac:(congruence)) as (i & seen & Ci & Ri & nd0 & Rd & Ed).
      rewrite Ci in E. cbn [deref rbind] in E.
      destruct (characteristic_vector _ _ _ _); cbn [rbind] in E; try discriminate.
      assert (Ed' : nedges nd0 = (seen ++ [(c, next)]) ++ edges) by (rewrite Ed, Ee, <- app_assoc; reflexivity).
      assert (Am : forall pend cpl cand, amid (Query pend edges cpl (Some i) cand (q_k q) (q_i q)) i (seen ++ [(c, next)])).
      { intros. split; [reflexivity|]. split; auto. exists nd0. auto. }
      destruct (state_transition _ _ _ _ _) as [[st|]| |]; cbn [rbind] in E; try discriminate.
      + destruct (read h next) as [nd| |]; cbn [rbind] in E; try discriminate.
        assert (F : Forall is_child (q_pending q ++ [ChildI c next st i])).
        { apply Forall_app. split; auto. constructor; [exact I|constructor]. }
        destruct (nfin nd); [destruct (_ <=? _)%N|]; injection E as <- <-; (split; [split; cbn [q_pending]; auto; intros _; exists i, (seen ++ [(c, next)]); apply Am|]); try discriminate.
        intros _. unfold on. cbn [q_candidate plain r_update]. right. cbn [q_pending]. split; auto.
        exists i, seen, c, next. split; [apply Am|reflexivity].
      + injection E as <- <-. split; [split; cbn [q_pending]; auto; intros _; exists i, (seen ++ [(c, next)]); apply Am|discriminate].
  Qed.

  Lemma loop_where f : forall q q', fresh q \/ going q -> q_complete q = true -> advance_query_loop plain h alg term n f q = Ok q' ->
    going q' /\ (q_complete q' = false -> on q').
  Proof.
    induction f as [|f IH]; intros q q' W C E; [discriminate|]. cbn [advance_query_loop] in E.
    destruct (advance_step plain h alg term n q) as [[b q1]| |] eqn:E1; cbn [rbind] in E; try discriminate.
    destruct (step_where W E1) as [G O]. destruct b.
    - injection E as <-. split; auto.
    - pose proof (step_complete E1) as C1. destruct (has_work q1); [apply (IH q1); [auto|congruence|exact E]|].
      injection E as <-. split; auto. congruence.
  Qed.

  Lemma fresh_set q : fresh q -> fresh (set_complete q).
  Proof. intros X. exact X. Qed.
  Lemma going_set q : going q -> going (set_complete q).
  Proof. intros X. exact X. Qed.

  Lemma advance_where f q q' : fresh q \/ going q -> advance_query plain h alg term n f q = Ok q' ->
    going q' /\ (q_complete q' = false -> on q').
  Proof.
    unfold advance_query. intros W E. destruct (has_work q) eqn:Hw.
    - eapply loop_where; [| |exact E]; [|reflexivity]. destruct W; [left; apply fresh_set|right; apply going_set]; auto.
    - injection E as <-. assert (G : going q).
      { destruct W as [(W1 & st & W2)|W]; [|exact W]. unfold has_work in Hw. rewrite W1, W2 in Hw. discriminate. }
      split; [apply going_set, G|discriminate].
  Qed.

  Lemma after_where fuel k q : query_after plain fuel h (new_transducer alg root) term n k = Ok q ->
    q_complete q = false -> on q.
  Proof.
    assert (Inc : forall k q0 q', (fresh q0 \/ going q0) -> (q_complete q0 = false -> on q0) -> increments plain h alg term n fuel k q0 = Ok q' ->
      q_complete q' = false -> on q').
    { clear k q. induction k as [|k IH]; cbn [increments]; intros q0 q' W O E C; [injection E as <-; auto|].
      destruct (advance_query plain h alg term n fuel q0) as [q1| |] eqn:E1; cbn [rbind] in E; try discriminate.
      destruct (advance_where W E1) as [G1 O1]. eapply IH; [| |exact E|exact C]; auto. }
    intros E. unfold query_after, begin_query, new_query in E. cbn [tr_root tr_alg new_transducer i_node] in E.
    destruct (read h root) as [nd| |]; cbn [rbind] in E; try discriminate.
    assert (Fr : forall c, fresh (Query [RootI root [Pos 0 0 false]] [] false None c 0%N 0%N)).
    { intros c. split; [reflexivity|]. exists [Pos 0 0 false]. reflexivity. }
    destruct (nfin nd && _)%bool.
    - cbn [rbind] in E. eapply Inc; [| |exact E]; auto. intros _. unfold on. cbn [q_candidate plain r_update]. left. split; [reflexivity|apply Fr].
    - destruct (advance_query _ _ _ _ _ _ _) as [q1| |] eqn:E1; cbn [rbind] in E; try discriminate.
      destruct (advance_where (or_introl (Fr _)) E1) as [G1 O1]. eapply Inc; [| |exact E]; auto.
  Qed.
End Where.

(** ** Going on without the root *)
Section Past.
  Context {R : Type} (rt : result_type R).
  Variables (h : heap) (alg : algorithm) (term : str) (n : N).

  (** The root is not looked at again. *)
  Definition past (q : query R) : Prop :=
    Forall is_child (q_pending q) /\ (q_edges q <> [] -> exists i, q_current q = Some i /\ is_child i).

  Lemma denotes_child w base root os rest p x : owns w base (os ++ rest) -> o_ptr root <> null -> ic_parent (o_cell root) = null ->
    is_child x -> denotes (root :: os) p x ->
    exists o, In o os /\ o_ptr o = p /\ ic_node (o_cell o) = i_node x /\ map snd (o_pos o) = i_state x.
  Proof.
    intros Ho Hn Hp C D. destruct x as [|c nd st y]; [destruct C|]. destruct D as (o & [<-|I] & H2 & H3 & H4 & H5 & H6).
    - exfalso. rewrite Hp in H6. destruct (denotes_own H6) as (o' & [<-|I'] & K2 & _); [contradiction|].
      destruct (owns_get Ho (in_or_app _ _ _ (or_introl I'))) as (G1 & _). contradiction.
    - exists o. auto.
  Qed.

  Lemma step_past q q' : past q -> advance_step rt h alg term n q = Ok (false, q') -> past q' /\
    exists N K, forall al order fuel w base root os rest it L, sound_allocators al -> N <= fuel ->
      owns w base (os ++ rest) -> o_ptr root <> null -> ic_parent (o_cell root) = null -> related root os it q -> bounded L os ->
      exists w' it' os', lazy_step rt fuel al order h alg term n w it = Ok (false, w', it') /\
        owns w' base (os' ++ rest) /\ related root os' it' q' /\ bounded (Nat.max L K) os'.
  Proof.
    intros [P1 P2] H. unfold advance_step in H. destruct (q_edges q) as [|[label next] edges] eqn:Ee.
    - destruct (q_pending q) as [|x pending] eqn:Ep; [discriminate|].
      destruct (i_state x) as [|p st] eqn:Es; [discriminate|].
      destruct (read h (i_node x)) as [nd| |] eqn:Er; try discriminate. cbn [rbind] in H.
      injection H as <-. inversion P1 as [|? ? Px P1']; subst.
      split. { split; cbn [q_pending q_edges q_current]; auto. intros _. exists x. auto. }
      exists 0, 0. intros al order fuel w base root os rest it L HA _ Ho Hn Hp Hrel B.
      destruct Hrel as [r1 r2 r3 r4 r5 r6 r7 r8 r9]. rewrite Ep in r1.
      inversion r1 as [|a ? pa ? Da Dp]; subst.
      destruct (denotes_child Ho Hn Hp Px Da) as (o & K1 & K2 & K3 & K4).
      destruct (owns_get Ho (in_or_app _ _ _ (or_introl K1))) as (G1 & G2 & G3 & G4 & G5).
      unfold lazy_step. rewrite r2, Ee, <- H. rewrite <- K2.
      rewrite (mread_ok G1 G2). cbn [rbind]. rewrite (mread_ok G3 G4). cbn [rbind].
      rewrite Es in K4. destruct (o_pos o) as [|[a1 x1] lp] eqn:Eo; [discriminate|].
      cbn in K4. injection K4 as -> K4.
      assert (Eh : o_head o = a1) by (apply segment_start in G5; exact G5).
      rewrite Eh in *. rewrite (segment_pos (l1:=[]) G5). cbn [rbind]. rewrite K3, Er. cbn [rbind].
      eexists _, _, os. split; [reflexivity|]. split; [exact Ho|]. split.
      + constructor; cbn; auto. rewrite K2. exact Da.
      + now apply bounded_max.
    - destruct (P2 ltac:(discriminate)) as (x & Ec & Px). rewrite Ec in H. cbn [deref rbind] in H.
      destruct (characteristic_vector label term (q_k q) (q_i q)) as [cv| |] eqn:Ecv; try discriminate.
      cbn [rbind] in H.
      destruct (state_transition alg n (N.of_nat (length term)) (i_state x) cv) as [o| |] eqn:Et; try discriminate.
      cbn [rbind] in H.
      assert (P' : forall pend cpl cand, Forall is_child pend -> past (Query pend edges cpl (Some x) cand (q_k q) (q_i q))).
      { intros. split; cbn [q_pending q_edges q_current]; auto. intros _. exists x. auto. }
      split.
      { destruct o as [st|]; [|injection H as <-; auto].
        assert (F : Forall is_child (q_pending q ++ [ChildI label next st x])).
        { apply Forall_app. split; auto. constructor; [exact I|constructor]. }
        destruct (read h next) as [nd| |]; try discriminate. cbn [rbind] in H.
        destruct (nfin nd); [destruct (_ <=? n)%N|]; try discriminate; injection H as <-; auto. }
      exists (5 * length (i_state x) + 3 + match o with Some st => length st + 1 | None => 0 end),
             (match o with Some st => length st | None => 0 end).
      intros al order fuel w base root os rest it L HA Hf Ho Hn Hp Hrel B.
      destruct Hrel as [r1 r2 r3 r4 r5 r6 r7 r8 r9]. rewrite Ec in r5.
      destruct (denotes_child Ho Hn Hp Px r5) as (ox & K1 & K2 & K3 & K4).
      destruct (owns_get Ho (in_or_app _ _ _ (or_introl K1))) as (G1 & G2 & G3 & G4 & G5).
      unfold lazy_step. rewrite r2, Ee.
      replace (mread (w_int w) (l_current it)) with (Ok (o_cell ox))
        by (rewrite <- K2; symmetry; now apply mread_ok).
      cbn [rbind].
      rewrite r7, r8, Ecv. cbn [rbind].
      destruct HA as (HA1 & HA2 & HA3).
      rewrite <- K4 in Et.
      pose proof (@state_transition_pointers_ok (a_pos al) (a_st al) order alg n (N.of_nat (length term))
        (w_pos w) (w_st w) (ic_state (o_cell ox)) (o_head ox) (o_pos ox) cv o fuel HA1 HA2 G3 G4 G5 Et) as T.
      assert (Hl : (5 * length (o_pos ox) + 2 < fuel)%nat).
      { rewrite <- (map_length snd), K4. lia. }
      specialize (T Hl). destruct Ho as (Ho1 & Ho2 & Ho3). destruct o as [st|].
      + destruct T as (m' & ss' & s & hd' & l' & E & C & M & S1 & S2 & S3 & S4 & S5).
        rewrite E. cbn [rbind w_pos w_st w_int].
        destruct (N.eqb_spec s null); [contradiction|]. cbn [negb].
        destruct (mget_mnew (w_int w) (ICell label next s (l_current it)) HA3) as (y & is' & Ey & Y1 & Y2 & Y3 & Y4 & Y5).
        unfold new_intersection. cbn [w_int w_pos w_st]. rewrite Ey.
        set (oy := Own y (ICell label next s (l_current it)) hd' l').
        assert (Ho' : owns (World m' ss' is') base (oy :: os ++ rest)).
        { split; [|split]; cbn [map w_pos w_st w_int o_head o_pos o_cell o_ptr oy ic_state].
          - refine (consists_trans Ho1 C).
          - eapply adds_one; eauto.
          - eapply adds_one; eauto. }
        assert (Ho'' : owns (World m' ss' is') base ((os ++ [oy]) ++ rest)).
        { apply (owns_perm (os := oy :: os ++ rest)); [|exact Ho'].
          rewrite <- app_assoc. cbn. apply Permutation_middle. }
        assert (I' : incl (root :: os) (root :: os ++ [oy])).
        { intros z [<-|Hz]; [now left|right]. apply in_or_app; auto. }
        assert (Dy : denotes (root :: os ++ [oy]) y (ChildI label next st x)).
        { cbn. exists oy. split; [right; apply in_or_app; right; now left|].
          cbn. repeat (split; [reflexivity || exact M|]). eapply denotes_incl; [exact I'|exact r5]. }
        assert (Rel : forall cpl (cand : R), related root (os ++ [oy])
          (LazyQuery (l_pending it ++ [y]) edges (l_intersections it ++ [y]) cpl (l_current it) cand (q_k q) (q_i q))
          (Query (q_pending q ++ [ChildI label next st x]) edges cpl (Some x) cand (q_k q) (q_i q))).
        { intros cpl cand. constructor; cbn; auto.
          - apply Forall2_app; [|constructor; [exact Dy|constructor]].
            apply (forall2_impl (P := denotes (root :: os))); [|exact r1]. intros; eapply denotes_incl; eauto.
          - rewrite map_app, r3. reflexivity.
          - eapply denotes_incl; eauto.
          - apply Forall_app. split; [exact r9|]. constructor; [|constructor]. cbn. rewrite <- K2. exact G1. }
        assert (Bn : bounded (Nat.max L (length st)) (os ++ [oy])).
        { intros z Hz. apply in_app_or in Hz. destruct Hz as [Hz|[<-|[]]].
          - specialize (B z Hz). lia.
          - cbn. rewrite <- M, map_length. lia. }
        destruct (read h next) as [nd| |] eqn:Er; try discriminate. cbn [rbind] in *.
        destruct (nfin nd).
        * cbn [w_st w_pos w_int]. rewrite (mread_ok S1 S3). cbn [rbind].
          assert (Sg : segment m' hd' l' null) by (apply (world_seg C)).
          rewrite (@distance_pointers_ok alg (N.of_nat (length term)) m' hd' l' fuel Sg)
            by (rewrite <- (map_length snd), M; lia).
          cbn [rbind]. rewrite M. destruct (distance alg st (N.of_nat (length term)) <=? n)%N; [discriminate|].
          injection H as <-. rewrite r4, r6.
          eexists _, _, (os ++ [oy]). split; [reflexivity|]. split; [exact Ho''|]. split; [apply Rel|exact Bn].
        * injection H as <-. rewrite r4, r6.
          eexists _, _, (os ++ [oy]). split; [reflexivity|]. split; [exact Ho''|]. split; [apply Rel|exact Bn].
      + destruct T as (m' & ss' & E & C & S & S'). rewrite E. cbn [rbind]. rewrite N.eqb_refl. cbn [negb].
        injection H as <-. eexists _, _, os. split; [reflexivity|]. split.
        { split; [|split]; cbn [w_pos w_st w_int].
          - eapply consists_ext; [|exact Ho1]. destruct C as (_ & _ & _ & F & C). split; [|exact C]. intros p. apply F. intros [].
          - eapply adds_ext; [|exact Ho2]. now split.
          - exact Ho3. }
        split; [constructor; cbn; auto|now apply bounded_max].
  Qed.

  Lemma step_broke q q' : advance_step rt h alg term n q = Ok (true, q') -> q_complete q' = false.
  Proof.
    unfold advance_step. destruct (q_edges q) as [|[c next] edges].
    - destruct (q_pending q) as [|i rest]; [discriminate|]. destruct (i_state i); [discriminate|].
      destruct (read h (i_node i)); cbn [rbind]; discriminate.
    - destruct (deref (q_current q)); cbn [rbind]; try discriminate.
      destruct (characteristic_vector _ _ _ _); cbn [rbind]; try discriminate.
      destruct (state_transition _ _ _ _ _) as [[st|]| |]; cbn [rbind]; try discriminate.
      destruct (read h next) as [nd| |]; cbn [rbind]; try discriminate.
      destruct (nfin nd); [destruct (_ <=? _)%N|]; try discriminate; now injection 1 as <-.
  Qed.

  Lemma loop_past f : forall q q', past q -> advance_query_loop rt h alg term n f q = Ok q' -> q_complete q' = true ->
    exists N K, forall al order fuel rounds w base root os rest it L, sound_allocators al -> N <= fuel -> f <= rounds ->
      owns w base (os ++ rest) -> o_ptr root <> null -> ic_parent (o_cell root) = null -> related root os it q -> bounded L os ->
      exists w' it' os', lazy_loop rt fuel al order h alg term n rounds w it = Ok (w', it') /\
        owns w' base (os' ++ rest) /\ related root os' it' q' /\ bounded (Nat.max L K) os'.
  Proof.
    induction f as [|f IH]; intros q q' P H C; [discriminate|]. cbn [advance_query_loop] in H.
    destruct (advance_step rt h alg term n q) as [[b q1]| |] eqn:E; try discriminate. cbn [rbind] in H.
    destruct b; [injection H as <-; rewrite (step_broke E) in C; discriminate|].
    destruct (step_past P E) as (P1 & N1 & K1 & S1).
    destruct (has_work q1) eqn:W.
    - destruct (IH q1 q' P1 H C) as (N2 & K2 & S2). exists (Nat.max N1 N2), (Nat.max K1 K2).
      intros al order fuel rounds w base root os rest it L HA Hf Hr Ho Hn Hp Hrel B.
      destruct rounds as [|rounds]; [lia|]. cbn [lazy_loop].
      destruct (S1 al order fuel w base root os rest it L) as (w1 & it1 & os1 & E1 & Ho1 & Hrel1 & B1); auto; [lia|].
      rewrite E1. cbn [rbind]. rewrite (work_ok Hrel1), W.
      destruct (S2 al order fuel rounds w1 base root os1 rest it1 (Nat.max L K1)) as (w2 & it2 & os2 & E2 & Ho2 & Hrel2 & B2);
        auto; try lia.
      exists w2, it2, os2. split; [exact E2|]. split; [exact Ho2|]. split; [exact Hrel2|].
      now rewrite Nat.max_assoc.
    - injection H as <-. exists N1, K1. intros al order fuel rounds w base root os rest it L HA Hf Hr Ho Hn Hp Hrel B.
      destruct rounds as [|rounds]; [lia|]. cbn [lazy_loop].
      destruct (S1 al order fuel w base root os rest it L) as (w1 & it1 & os1 & E1 & Ho1 & Hrel1 & B1); auto.
      rewrite E1. cbn [rbind]. rewrite (work_ok Hrel1), W. exists w1, it1, os1. auto.
  Qed.

  Lemma advance_past f q q' : past q -> advance_query rt h alg term n f q = Ok q' -> q_complete q' = true ->
    exists N K, forall al order fuel w base root os rest it L, sound_allocators al -> N <= fuel ->
      owns w base (os ++ rest) -> o_ptr root <> null -> ic_parent (o_cell root) = null -> related root os it q -> bounded L os ->
      exists w' it' os', lazy_advance rt fuel al order h alg term n w it = Ok (w', it') /\
        owns w' base (os' ++ rest) /\ related root os' it' q' /\ bounded (Nat.max L K) os'.
  Proof.
    unfold advance_query. intros P H C. destruct (has_work q) eqn:W.
    - assert (P' : past (set_complete q)) by exact P.
      destruct (loop_past P' H C) as (N & K & S). exists (Nat.max N f), K.
      intros al order fuel w base root os rest it L HA Hf Ho Hn Hp Hrel B. unfold lazy_advance.
      rewrite (work_ok Hrel), W. apply S with (root := root) (os := os); auto; try lia.
      now apply complete_related.
    - injection H as <-. exists 0, 0. intros al order fuel w base root os rest it L HA _ Ho Hn Hp Hrel B.
      unfold lazy_advance. rewrite (work_ok Hrel), W. exists w, (lazy_complete it), os.
      split; [reflexivity|]. split; [exact Ho|]. split; [now apply complete_related|now apply bounded_max].
  Qed.

  (** The first thing to be looked at is the root. *)
  Definition at_root (q : query R) (r : ptr) : Prop :=
    (q_edges q = [] /\ exists st, q_pending q = [RootI r st]) \/
    (q_edges q <> [] /\ exists st, q_current q = Some (RootI r st)).

  Lemma advance_at_root q r al order fuel w root os it : at_root q r -> o_ptr root <> null -> mget (w_int w) (o_ptr root) = None ->
    related root os it q -> 0 < fuel -> lazy_advance rt fuel al order h alg term n w it = UB.
  Proof.
    intros A Hn Hg Hrel Hf. unfold lazy_advance. rewrite (work_ok Hrel).
    destruct Hrel as [r1 r2 r3 r4 r5 r6 r7 r8 r9].
    assert (Root : forall p st, denotes (root :: os) p (RootI r st) -> p = o_ptr root).
    { intros p st (o & [<-|I] & H2 & _ & H4 & _); auto. rewrite Forall_forall in r9. now destruct (r9 o I). }
    destruct fuel as [|fuel]; [lia|].
    destruct A as [(A1 & st & A2)|(A1 & st & A2)].
    - assert (has_work q = true) as -> by (unfold has_work; rewrite A1, A2; reflexivity).
      cbn [lazy_loop]. unfold lazy_step. cbn [lazy_complete l_edges l_pending]. rewrite r2, A1.
      rewrite A2 in r1. inversion r1 as [|p ? ps ? D _]; subst. apply Root in D. subst p. rewrite (mread_gone Hg). reflexivity.
    - assert (has_work q = true) as -> by (unfold has_work; destruct (q_edges q); [congruence|reflexivity]).
      cbn [lazy_loop]. unfold lazy_step. cbn [lazy_complete l_edges l_current]. rewrite r2.
      destruct (q_edges q) as [|[c p] es]; [congruence|]. rewrite A2 in r5. apply Root in r5. rewrite r5, (mread_gone Hg). reflexivity.
  Qed.
End Past.
