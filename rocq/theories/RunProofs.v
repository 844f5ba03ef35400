(** * RunProofs: programs that run several queries. *)
From Coq Require Import Permutation.
From Verif Require Import Base Spec ModelTransducer ModelDawg ModelQuery ModelState ModelMemory.
From Verif Require Import SpecState SpecDawg SpecQuery SpecMemory PointerProofs MemoryProofs.
Set Implicit Arguments. Unset Strict Implicit.

Lemma put_app {R} (a b : list (slot (R := R))) x y : put (a ++ x :: b) (length a) y = a ++ y :: b.
Proof. induction a as [|z a IH]; cbn; [reflexivity|]. now rewrite IH. Qed.

Lemma app_inj_len {A} (a b x y : list A) : a ++ x = b ++ y -> length a = length b -> a = b /\ x = y.
Proof.
  revert b. induction a as [|z a IH]; intros [|z' b] H L; cbn in *; try discriminate; [auto|].
  injection H as -> H. destruct (IH b H) as [-> ->]; auto.
Qed.

Section Run.
  Context {R : Type} (rt : result_type R).
  Variables (terms : list str) (h : heap) (d : dawg) (alg : algorithm).

  (** The query on values that corresponds to an iterator in memory. *)
  Definition aslot := option (str * N * nat * query R).

  (** An iterator, what it owns and what it stands for. *)
  Record entry := Entry { e_own : list own; e_slot : slot (R := R); e_abs : aslot }.

  Definition good (root : own) (e : entry) : Prop :=
    match e_slot e, e_abs e with
    | None, None => e_own e = []
    | Some (q, n, k, it), Some (q', n', k', lit) =>
        (q, n, k) = (q', n', k') /\ related root (e_own e) it lit
    | _, _ => False
    end.

  Definition owned (es : list entry) : list own := concat (map e_own es).

  Definition inv (L : nat) (base : world) (root : own) (w : world) (ss : list slot) (abs : list aslot) : Prop :=
    exists es, ss = map e_slot es /\ abs = map e_abs es /\ Forall (good root) es /\
      owns w base (owned es) /\ bounded L (owned es).

  Lemma inv_start w root : inv 0 w root w [] [].
  Proof.
    exists []. split; [reflexivity|]. split; [reflexivity|]. split; [constructor|]. split; [|intros ? []].
    apply owns_nil. repeat split; reflexivity.
  Qed.

  (** Each of the queries on values has come where it should. *)
  Definition right_place (a : aslot) : Prop :=
    match a with None => True | Some (q, n, k, lit) =>
      within_limits terms q n /\ stands_at rt alg h d q n k lit end.

  Hypothesis defined : forall q n k, within_limits terms q n -> exists lit, stands_at rt alg h d q n k lit.

  Lemma owned_app a b : owned (a ++ b) = owned a ++ owned b.
  Proof. unfold owned. now rewrite map_app, concat_app. Qed.
  Lemma owned_cons e es : owned (e :: es) = e_own e ++ owned es.
  Proof. reflexivity. Qed.

  Lemma owned_middle a e b : Permutation (owned (a ++ e :: b)) (e_own e ++ owned (a ++ b)).
  Proof. rewrite !owned_app, owned_cons. apply Permutation_app_swap_app. Qed.

  Lemma bounded_app L a b : bounded L (a ++ b) <-> bounded L a /\ bounded L b.
  Proof.
    unfold bounded. split.
    - intros H. split; intros o Ho; apply H; apply in_or_app; auto.
    - intros [H1 H2] o Ho. apply in_app_or in Ho. destruct Ho; auto.
  Qed.

  Lemma bounded_le L L' os : (L <= L')%nat -> bounded L os -> bounded L' os.
  Proof. intros Hle B o Ho. specialize (B o Ho). lia. Qed.

  Lemma step_stands q n k lit lit' : stands_at rt alg h d q n k lit -> stands_at rt alg h d q n (S k) lit' ->
    exists f, advance_query rt h alg q n f lit = Ok lit'.
  Proof.
    intros [e1 E1] [e2 E2]. exists (Nat.max e1 e2).
    specialize (E1 (Nat.max e1 e2) ltac:(lia)). specialize (E2 (Nat.max e1 e2) ltac:(lia)).
    set (f := Nat.max e1 e2) in *. clearbody f. clear e1 e2.
    unfold query_after in *. destruct (begin_query rt f h (new_transducer alg (d_root d)) q n) as [q0| |];
      try discriminate. cbn [rbind tr_alg new_transducer] in *.
    assert (G : forall j q0, increments rt h alg q n f (S j) q0 =
      (do q1 <- increments rt h alg q n f j q0; advance_query rt h alg q n f q1)).
    { clear. induction j as [|j IH]; intros q0.
      - cbn. destruct (advance_query rt h alg q n f q0); reflexivity.
      - change (increments rt h alg q n f (S (S j)) q0) with
          (do q1 <- advance_query rt h alg q n f q0; increments rt h alg q n f (S j) q1).
        change (increments rt h alg q n f (S j) q0) with
          (do q1 <- advance_query rt h alg q n f q0; increments rt h alg q n f j q1).
        destruct (advance_query rt h alg q n f q0); cbn [rbind]; auto. }
    rewrite G, E1 in E2. exact E2.
  Qed.

  Lemma nth_map {A B} (f : A -> B) l i y : nth_error (map f l) i = Some y ->
    exists a x b, l = a ++ x :: b /\ length a = i /\ f x = y.
  Proof.
    revert i. induction l as [|x l IH]; intros i H; [destruct i; discriminate|]. destruct i as [|i].
    - cbn in H. injection H as <-. exists [], x, l. auto.
    - cbn in H. destruct (IH i H) as (a & x' & b & -> & E & F). exists (x :: a), x', b.
      cbn. rewrite E. auto.
  Qed.

  Lemma put_abs (l : list entry) a x b y : l = a ++ x :: b ->
    put (map e_slot l) (length a) (e_slot y) = map e_slot (a ++ y :: b).
  Proof.
    intros ->. rewrite !map_app. cbn [map]. rewrite <- (map_length e_slot a). apply put_app.
  Qed.

  Lemma good_live root q n k it lit os : related root os it lit ->
    good root (Entry os (Some (q, n, k, it)) (Some (q, n, k, lit))).
  Proof. cbn. auto. Qed.

  Lemma run_one_ok c abs : Forall right_place abs ->
    (forall q n, c = Open q n -> within_limits terms q n) ->
    exists N K abs', Forall right_place abs' /\
      forall al order fuel base root w ss L, sound_allocators al -> (N <= fuel)%nat ->
        readable base root -> denotes [root] (o_ptr root) (RootI (d_root d) [Pos 0 0 false]) ->
        inv L base root w ss abs -> (L < fuel)%nat ->
        exists w' ss', run_one rt fuel al order h alg (o_ptr root) c w ss = Ok (w', ss') /\
          inv (Nat.max L K) base root w' ss' abs'.
  Proof using defined.
    intros HP HL. destruct c as [q n|i|i].
    - specialize (HL q n eq_refl). destruct (defined 0%nat HL) as (lit & St). pose proof St as [e E].
      specialize (E e (Nat.le_refl _)). unfold query_after in E. cbn [increments] in E.
      destruct (begin_query rt e h (new_transducer alg (d_root d)) q n) as [lit0| |] eqn:Eb; try discriminate.
      cbn in E. injection E as ->.
      destruct (@begin_ok R rt h alg q n e (RootI (d_root d) [Pos 0 0 false]) lit Eb) as (N & K & B).
      exists N, K, (abs ++ [Some (q, n, 0%nat, lit)]). split.
      { apply Forall_app. split; [exact HP|]. constructor; [|constructor]. split; auto. }
      intros al order fuel base root w ss L HA Hf HR D (es & -> & -> & HG & Ho & Bd) _.
      destruct (B al order fuel w base root (owned es) HA Hf Ho HR D) as (w' & it' & os' & E' & Ho' & Rel & Bd').
      cbn [run_one]. rewrite E'. cbn [rbind]. eexists _, _. split; [reflexivity|].
      exists (es ++ [Entry os' (Some (q, n, 0%nat, it')) (Some (q, n, 0%nat, lit))]).
      split; [now rewrite map_app|]. split; [now rewrite map_app|].
      split; [apply Forall_app; split; [exact HG|constructor; [now apply good_live|constructor]]|].
      split.
      + eapply owns_perm; [|exact Ho'].
        rewrite owned_app, owned_cons. cbn [e_own]. change (owned []) with (@nil own). rewrite app_nil_r.
        apply Permutation_app_comm.
      + rewrite owned_app, owned_cons. change (owned []) with (@nil own). rewrite app_nil_r.
        apply bounded_app. split; [now apply bounded_max|]. cbn. eapply bounded_le; [|exact Bd']. lia.
    - destruct (nth_error abs i) as [[[[[q n] k] lit]|]|] eqn:Ei.
      + assert (Hp : right_place (Some (q, n, k, lit))).
        { rewrite Forall_forall in HP. apply HP. eapply nth_error_In; eauto. }
        destruct Hp as [HLq St]. destruct (defined (S k) HLq) as (lit' & St').
        destruct (step_stands St St') as (f & E).
        destruct (@advance_ok R rt h alg q n f lit lit' E) as (N & K & B).
        destruct (@nth_error_split _ abs i _ Ei) as (a & b & Eab & La).
        exists N, K, (a ++ Some (q, n, S k, lit') :: b). split.
        { subst abs. apply Forall_app in HP. destruct HP as [HP1 HP2]. inversion HP2; subst.
          apply Forall_app. split; [auto|]. constructor; [split; auto|auto]. }
        intros al order fuel base root w ss L HA Hf HR D (es & -> & Ea & HG & Ho & Bd) _. rewrite Ea in Ei.
        destruct (nth_map Ei) as (ea & e & eb & -> & Le & He). clear Ei. destruct Le.
        assert (Eab' : map e_abs (ea ++ e :: eb) = a ++ Some (q, n, k, lit) :: b) by (rewrite <- Ea; exact Eab).
        pose proof HG as HG0. apply Forall_app in HG0. destruct HG0 as [HG1 HG2].
        inversion HG2 as [|? ? G1 G2]; subst. unfold good in G1. rewrite He in G1.
        destruct (e_slot e) as [[[[q0 n0] k0] it]|] eqn:Es; [|contradiction]. destruct G1 as [G1 Rel].
        injection G1 as -> -> ->.
        apply (owns_perm (@owned_middle _ _ _)) in Ho.
        assert (Bd1 : bounded L (e_own e) /\ bounded L (owned (ea ++ eb))).
        { rewrite owned_app in *. rewrite owned_cons in Bd. rewrite !bounded_app in *. tauto. }
        destruct (B al order fuel w base root (e_own e) (owned (ea ++ eb)) it L HA Hf Ho HR Rel) as
          (w' & it' & os' & E' & Ho' & Rel' & Bd'); [tauto|].
        assert (En : nth_error (map e_slot (ea ++ e :: eb)) (length ea) = Some (Some (q, n, k, it))).
        { rewrite map_app, nth_error_app2; rewrite map_length; [|lia]. rewrite Nat.sub_diag. cbn. now rewrite Es. }
        cbn [run_one]. rewrite En, E'. cbn [rbind].
        set (e' := Entry os' (Some (q, n, S k, it')) (Some (q, n, S k, lit'))).
        eexists _, _. split; [reflexivity|]. exists (ea ++ e' :: eb).
        split; [exact (put_abs e' eq_refl)|].
        split.
        { rewrite map_app in Eab' |- *. cbn [map] in *. rewrite He in Eab'.
          apply app_inj_len in Eab'; [|now rewrite map_length]. destruct Eab' as [<- Eab'].
          injection Eab' as <-. reflexivity. }
        split; [apply Forall_app; split; [auto|constructor; [now apply good_live|auto]]|].
        split.
        * eapply owns_perm; [apply Permutation_sym, owned_middle|]. exact Ho'.
        * rewrite owned_app in *. rewrite owned_cons. destruct Bd1 as [_ Bd1].
          apply bounded_app in Bd1. destruct Bd1. rewrite !bounded_app.
          split; [now apply bounded_max|]. split; [exact Bd'|now apply bounded_max].
      + exists 0%nat, 0%nat, abs. split; [exact HP|].
        intros al order fuel base root w ss L _ _ _ D I _. exists w, ss.
        split; [|now rewrite Nat.max_0_r]. destruct I as (es & -> & -> & HG & _). cbn [run_one].
        destruct (nth_map Ei) as (ea & e & eb & -> & <- & He).
        apply Forall_app in HG. destruct HG as [_ HG]. inversion HG as [|? ? G _]; subst.
        unfold good in G. rewrite He in G. destruct (e_slot e) as [[[[? ?] ?] ?]|] eqn:Es; [contradiction|].
        rewrite map_app, nth_error_app2; rewrite map_length; [|lia]. rewrite Nat.sub_diag. cbn. now rewrite Es.
      + exists 0%nat, 0%nat, abs. split; [exact HP|].
        intros al order fuel base root w ss L _ _ _ D I _. exists w, ss.
        split; [|now rewrite Nat.max_0_r]. destruct I as (es & -> & -> & HG & _). cbn [run_one].
        apply nth_error_None in Ei. rewrite map_length in Ei.
        replace (nth_error (map e_slot es) i) with (@None (slot (R := R))); [reflexivity|].
        symmetry. apply nth_error_None. now rewrite map_length.
    - destruct (nth_error abs i) as [[[[[q n] k] lit]|]|] eqn:Ei.
      + destruct (@nth_error_split _ abs i _ Ei) as (a & b & Eab & La).
        exists 0%nat, 0%nat, (a ++ None :: b). split.
        { subst abs. apply Forall_app in HP. destruct HP as [HP1 HP2]. inversion HP2; subst.
          apply Forall_app. split; [auto|]. constructor; [exact I|auto]. }
        intros al order fuel base root w ss L HA Hf HR D (es & -> & Ea & HG & Ho & Bd) HLf. rewrite Ea in Ei.
        destruct (nth_map Ei) as (ea & e & eb & -> & Le & He). clear Ei. destruct Le.
        assert (Eab' : map e_abs (ea ++ e :: eb) = a ++ Some (q, n, k, lit) :: b) by (rewrite <- Ea; exact Eab).
        pose proof HG as HG0. apply Forall_app in HG0. destruct HG0 as [HG1 HG2].
        inversion HG2 as [|? ? G1 G2]; subst. unfold good in G1. rewrite He in G1.
        destruct (e_slot e) as [[[[q0 n0] k0] it]|] eqn:Es; [|contradiction]. destruct G1 as [G1 Rel].
        injection G1 as -> -> ->.
        apply (owns_perm (@owned_middle _ _ _)) in Ho.
        assert (Bd1 : bounded L (e_own e) /\ bounded L (owned (ea ++ eb))).
        { rewrite owned_app in *. rewrite owned_cons in Bd. rewrite !bounded_app in *. tauto. }
        destruct (@delete_owns base (owned (ea ++ eb)) L fuel (e_own e) HLf w Ho) as (w' & E' & Ho');
          [tauto|].
        assert (En : nth_error (map e_slot (ea ++ e :: eb)) (length ea) = Some (Some (q, n, k, it))).
        { rewrite map_app, nth_error_app2; rewrite map_length; [|lia]. rewrite Nat.sub_diag. cbn. now rewrite Es. }
        cbn [run_one]. rewrite En. unfold lazy_destroy. rewrite (rel_owned Rel), E'. cbn [rbind].
        set (e' := Entry [] None None).
        eexists _, _. split; [reflexivity|]. exists (ea ++ e' :: eb).
        split; [exact (put_abs e' eq_refl)|].
        split.
        { rewrite map_app in Eab' |- *. cbn [map] in *. rewrite He in Eab'.
          apply app_inj_len in Eab'; [|now rewrite map_length]. destruct Eab' as [<- Eab'].
          injection Eab' as <-. reflexivity. }
        split; [apply Forall_app; split; [auto|constructor; [reflexivity|auto]]|].
        split.
        * eapply owns_perm; [apply Permutation_sym, owned_middle|]. exact Ho'.
        * rewrite owned_app in *. rewrite owned_cons. cbn [e_own e' app].
          rewrite Nat.max_0_r. tauto.
      + exists 0%nat, 0%nat, abs. split; [exact HP|].
        intros al order fuel base root w ss L _ _ _ D I _. exists w, ss.
        split; [|now rewrite Nat.max_0_r]. destruct I as (es & -> & -> & HG & _). cbn [run_one].
        destruct (nth_map Ei) as (ea & e & eb & -> & <- & He).
        apply Forall_app in HG. destruct HG as [_ HG]. inversion HG as [|? ? G _]; subst.
        unfold good in G. rewrite He in G. destruct (e_slot e) as [[[[? ?] ?] ?]|] eqn:Es; [contradiction|].
        rewrite map_app, nth_error_app2; rewrite map_length; [|lia]. rewrite Nat.sub_diag. cbn. now rewrite Es.
      + exists 0%nat, 0%nat, abs. split; [exact HP|].
        intros al order fuel base root w ss L _ _ _ D I _. exists w, ss.
        split; [|now rewrite Nat.max_0_r]. destruct I as (es & -> & -> & HG & _). cbn [run_one].
        apply nth_error_None in Ei. rewrite map_length in Ei.
        replace (nth_error (map e_slot es) i) with (@None (slot (R := R))); [reflexivity|].
        symmetry. apply nth_error_None. now rewrite map_length.
  Qed.

  Lemma run_ok cs : forall abs, Forall right_place abs ->
    (forall q n, In (Open q n) cs -> within_limits terms q n) ->
    exists N K abs', Forall right_place abs' /\
      forall al order fuel base root w ss L, sound_allocators al -> (N <= fuel)%nat ->
        readable base root -> denotes [root] (o_ptr root) (RootI (d_root d) [Pos 0 0 false]) ->
        inv L base root w ss abs -> (Nat.max L K < fuel)%nat ->
        exists w' ss', run rt fuel al order h alg (o_ptr root) cs w ss = Ok (w', ss') /\
          inv (Nat.max L K) base root w' ss' abs'.
  Proof using defined.
    induction cs as [|c cs IH]; intros abs HP HL.
    - exists 0%nat, 0%nat, abs. split; [exact HP|]. intros al order fuel base root w ss L _ _ _ _ I _.
      exists w, ss. split; [reflexivity|]. now rewrite Nat.max_0_r.
    - destruct (@run_one_ok c abs HP) as (N1 & K1 & abs1 & HP1 & S1).
      { intros q n ->. apply HL. now left. }
      destruct (IH abs1 HP1) as (N2 & K2 & abs2 & HP2 & S2). { intros q n Hin. apply HL. now right. }
      exists (Nat.max N1 N2), (Nat.max K1 K2), abs2. split; [exact HP2|].
      intros al order fuel base root w ss L HA Hf HR D I HL'.
      destruct (S1 al order fuel base root w ss L) as (w1 & ss1 & E1 & I1); auto; try lia.
      destruct (S2 al order fuel base root w1 ss1 (Nat.max L K1)) as (w2 & ss2 & E2 & I2); auto; try lia.
      exists w2, ss2. cbn [run]. rewrite E1. cbn [rbind]. split; [exact E2|].
      now rewrite Nat.max_assoc.
  Qed.

  Lemma close_all_ok fuel base root L es : (L < fuel)%nat -> forall w,
    Forall (good root) es -> owns w base (owned es) -> bounded L (owned es) ->
    exists w', close_all fuel w (map e_slot es) = Ok w' /\ owns w' base [].
  Proof.
    intros Hf. induction es as [|e es IH]; intros w HG Ho Bd.
    - exists w. split; [reflexivity|exact Ho].
    - inversion HG as [|? ? G1 G2]; subst. rewrite owned_cons in *. apply bounded_app in Bd.
      cbn [map close_all]. unfold good in G1. destruct (e_slot e) as [[[[q n] k] it]|].
      + destruct (e_abs e) as [[[[q' n'] k'] lit]|]; [|contradiction]. destruct G1 as [_ Rel].
        destruct (@delete_owns base (owned es) L fuel (e_own e) Hf w Ho) as (w1 & E1 & Ho1); [tauto|].
        unfold lazy_destroy. rewrite (rel_owned Rel), E1. cbn [rbind]. apply IH; tauto.
      + destruct (e_abs e) as [[[[q' n'] k'] lit]|]; [contradiction|]. rewrite G1 in Ho. cbn [app] in Ho.
        apply IH; tauto.
  Qed.

  Lemma owned_closed root es : Forall (good root) es -> (forall s, In s (map e_slot es) -> s = None) ->
    owned es = [].
  Proof.
    induction es as [|e es IH]; intros HG HN; [reflexivity|]. inversion HG as [|? ? G1 G2]; subst.
    rewrite owned_cons, IH; auto; [|intros s Hs; apply HN; now right].
    unfold good in G1. rewrite (HN (e_slot e) (or_introl eq_refl)) in G1.
    destruct (e_abs e) as [[[[? ?] ?] ?]|]; [contradiction|]. now rewrite G1.
  Qed.
End Run.
