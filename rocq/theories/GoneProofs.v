(** * GoneProofs: queries that have outlived their transducer. *)
From Coq Require Import Permutation.
From Verif Require Import Base Spec ModelTransducer ModelDawg ModelQuery ModelState ModelMemory.
From Verif Require Import SpecState SpecDawg SpecQuery SpecMemory PointerProofs MemoryProofs RunProofs.
Local Open Scope nat_scope.
Set Implicit Arguments.
Unset Strict Implicit.

Lemma mread_gone {A} (m : mem A) p : mget m p = None -> mread m p = UB.
Proof. intros E. unfold mread. rewrite E. now destruct (p =? null)%N. Qed.

Section Gone.
  Context {R : Type} (rt : result_type R).
  Variables (h : heap) (alg : algorithm) (term : str) (n : N).

  (** The text of an intersection cannot be put together without the first one. *)
  Lemma str_gone w root os : (forall o, In o os -> readable w o) -> mget (w_int w) (o_ptr root) = None ->
    o_ptr root <> null -> Forall (fun o => ic_parent (o_cell o) <> null) os ->
    forall x p fuel, denotes (root :: os) p x -> length (i_str x) < fuel -> intersection_str fuel (w_int w) p = UB.
  Proof.
    intros H G Hn HP. induction x as [nd st|c nd st y IH]; intros p fuel D Hf; destruct fuel as [|fuel]; try lia;
      cbn [intersection_str i_str] in *.
    - destruct D as (o & [<-|Ho] & H2 & H3 & H4 & H5).
      + rewrite <- H2, (mread_gone G). reflexivity.
      + rewrite Forall_forall in HP. now destruct (HP o Ho).
    - destruct D as (o & [<-|Ho] & H2 & H3 & H4 & H5 & H6).
      + rewrite <- H2, (mread_gone G). reflexivity.
      + destruct (H _ Ho) as (G1 & G2 & _). rewrite <- H2. rewrite (mread_ok G1 G2). cbn [rbind].
        rewrite Forall_forall in HP. apply HP in Ho. destruct (N.eqb_spec (ic_parent (o_cell o)) null); [contradiction|].
        cbn [negb]. rewrite app_length in Hf. cbn in Hf. rewrite (IH _ fuel H6) by lia. reflexivity.
  Qed.

  Lemma step_gone q b q' : advance_step rt h alg term n q = Ok (b, q') ->
    exists N, forall al order fuel w base root os rest it, sound_allocators al -> (forall m, a_int al m <> o_ptr root) ->
      N <= fuel -> owns w base (os ++ rest) -> mget (w_int w) (o_ptr root) = None -> o_ptr root <> null ->
      related root os it q ->
      lazy_step rt fuel al order h alg term n w it = UB \/
      (b = false /\ exists w' it' os', lazy_step rt fuel al order h alg term n w it = Ok (false, w', it') /\
        owns w' base (os' ++ rest) /\ mget (w_int w') (o_ptr root) = None /\ related root os' it' q').
  Proof.
    intros H. unfold advance_step in H. destruct (q_edges q) as [|[label next] edges] eqn:Ee.
    - destruct (q_pending q) as [|x pending] eqn:Ep; [discriminate|].
      destruct (i_state x) as [|p st] eqn:Es; [discriminate|].
      destruct (read h (i_node x)) as [nd| |] eqn:Er; try discriminate. cbn [rbind] in H.
      injection H as <- <-. exists 0.
      intros al order fuel w base root os rest it HA Fr _ Ho Hg Hn Hrel.
      destruct Hrel as [r1 r2 r3 r4 r5 r6 r7 r8 r9]. rewrite Ep in r1.
      inversion r1 as [|a ? pa ? Da Dp]; subst.
      destruct (denotes_own Da) as (o & K1 & K2 & K3 & K4).
      unfold lazy_step. rewrite r2, Ee, <- H. rewrite <- K2.
      destruct K1 as [<-|K1]; [left; now rewrite (mread_gone Hg)|]. right. split; [reflexivity|].
      destruct (owns_get Ho (in_or_app _ _ _ (or_introl K1))) as (G1 & G2 & G3 & G4 & G5).
      rewrite (mread_ok G1 G2). cbn [rbind]. rewrite (mread_ok G3 G4). cbn [rbind].
      rewrite Es in K4. destruct (o_pos o) as [|[a1 x1] lp] eqn:Eo; [discriminate|].
      cbn in K4. injection K4 as -> K4.
      assert (Eh : o_head o = a1) by (apply segment_start in G5; exact G5).
      rewrite Eh in *. rewrite (segment_pos (l1:=[]) G5). cbn [rbind]. rewrite K3, Er. cbn [rbind].
      eexists _, _, os. split; [reflexivity|]. split; [exact Ho|]. split; [exact Hg|].
      constructor; cbn; auto. rewrite K2. exact Da.
    - destruct (q_current q) as [x|] eqn:Ec; [|discriminate]. cbn [deref rbind] in H.
      destruct (characteristic_vector label term (q_k q) (q_i q)) as [cv| |] eqn:Ecv; try discriminate.
      cbn [rbind] in H.
      destruct (state_transition alg n (N.of_nat (length term)) (i_state x) cv) as [o| |] eqn:Et; try discriminate.
      cbn [rbind] in H.
      exists (5 * length (i_state x) + 3 + match o with Some st => length st + 1 | None => 0 end
              + length (i_str x) + 3).
      intros al order fuel w base root os rest it HA Fr Hf Ho Hg Hn Hrel.
      destruct Hrel as [r1 r2 r3 r4 r5 r6 r7 r8 r9]. rewrite Ec in r5.
      destruct (denotes_own r5) as (ox & K1 & K2 & K3 & K4).
      unfold lazy_step. rewrite r2, Ee. rewrite <- K2.
      destruct K1 as [<-|K1]; [left; now rewrite (mread_gone Hg)|]. rewrite K2.
      destruct (owns_get Ho (in_or_app _ _ _ (or_introl K1))) as (G1 & G2 & G3 & G4 & G5).
      replace (mread (w_int w) (l_current it)) with (Ok (o_cell ox))
        by (rewrite <- K2; symmetry; now apply mread_ok).
      cbn [rbind].
      rewrite r7, r8, Ecv. cbn [rbind].
      destruct HA as (HA1 & HA2 & HA3).
      rewrite <- K4 in Et.
      pose proof (@state_transition_pointers_ok (a_pos al) (a_st al) order alg n (N.of_nat (length term))
        (w_pos w) (w_st w) (ic_state (o_cell ox)) (o_head ox) (o_pos ox) cv o fuel HA1 HA2 G3 G4 G5 Et) as T.
      assert (Hl : (5 * length (o_pos ox) + 2 < fuel)%nat).
      { rewrite <- (map_length snd), K4. lia. }
      specialize (T Hl). destruct Ho as (Ho1 & Ho2 & Ho3). destruct o as [st|].
      + destruct T as (m' & ss' & s & hd' & l' & E & C & M & S1 & S2 & S3 & S4 & S5).
        rewrite E. cbn [rbind w_pos w_st w_int].
        destruct (N.eqb_spec s null); [contradiction|]. cbn [negb].
        pose proof (Fr (w_int w)) as Fy.
        destruct (mget_mnew (w_int w) (ICell label next s (l_current it)) HA3) as (y & is' & Ey & Y1 & Y2 & Y3 & Y4 & Y5).
        assert (Ny : y <> o_ptr root). { unfold mnew in Ey. injection Ey as Ea _. congruence. }
        unfold new_intersection. cbn [w_int w_pos w_st]. rewrite Ey.
        set (oy := Own y (ICell label next s (l_current it)) hd' l').
        assert (Ho' : owns (World m' ss' is') base (oy :: os ++ rest)).
        { split; [|split]; cbn [map w_pos w_st w_int o_head o_pos o_cell o_ptr oy ic_state].
          - refine (consists_trans Ho1 C).
          - eapply adds_one; eauto.
          - eapply adds_one; eauto. }
        assert (Ho'' : owns (World m' ss' is') base ((os ++ [oy]) ++ rest)).
        { apply (owns_perm (os := oy :: os ++ rest)); [|exact Ho'].
          rewrite <- app_assoc. cbn. apply Permutation_middle. }
        assert (Hg' : mget is' (o_ptr root) = None) by (rewrite Y4 by congruence; exact Hg).
        assert (I' : incl (root :: os) (root :: os ++ [oy])).
        { intros z [<-|Hz]; [now left|right]. apply in_or_app; auto. }
        assert (Dy : denotes (root :: os ++ [oy]) y (ChildI label next st x)).
        { cbn. exists oy. split; [right; apply in_or_app; right; now left|].
          cbn. repeat (split; [reflexivity || exact M|]). eapply denotes_incl; [exact I'|exact r5]. }
        assert (P' : Forall (fun o => ic_parent (o_cell o) <> null) (os ++ [oy])).
        { apply Forall_app. split; [exact r9|]. constructor; [|constructor]. cbn. rewrite <- K2. exact G1. }
        assert (Rel : forall cpl (cand : R), related root (os ++ [oy])
          (LazyQuery (l_pending it ++ [y]) edges (l_intersections it ++ [y]) cpl (l_current it) cand (q_k q) (q_i q))
          (Query (q_pending q ++ [ChildI label next st x]) edges cpl (Some x) cand (q_k q) (q_i q))).
        { intros cpl cand. constructor; cbn; auto.
          - apply Forall2_app; [|constructor; [exact Dy|constructor]].
            apply (forall2_impl (P := denotes (root :: os))); [|exact r1]. intros; eapply denotes_incl; eauto.
          - rewrite map_app, r3. reflexivity.
          - eapply denotes_incl; eauto. }
        destruct (read h next) as [nd| |] eqn:Er; try discriminate. cbn [rbind] in *.
        destruct (nfin nd).
        * cbn [w_st w_pos w_int]. rewrite (mread_ok S1 S3). cbn [rbind].
          assert (Sg : segment m' hd' l' null) by (apply (world_seg C)).
          rewrite (@distance_pointers_ok alg (N.of_nat (length term)) m' hd' l' fuel Sg)
            by (rewrite <- (map_length snd), M; lia).
          cbn [rbind]. rewrite M. destruct (distance alg st (N.of_nat (length term)) <=? n)%N.
          -- left.
             assert (Es : intersection_str fuel is' y = UB).
             { refine (@str_gone (World m' ss' is') root (os ++ [oy]) _ Hg' Hn P' _ y fuel Dy _).
               - intros z Hz. apply (owns_get Ho''). apply in_or_app. now left.
               - cbn [i_str]. rewrite app_length. cbn. lia. }
             rewrite Es. reflexivity.
          -- injection H as <- <-. right. split; [reflexivity|]. rewrite r4, r6.
             eexists _, _, (os ++ [oy]). split; [reflexivity|]. split; [exact Ho''|]. split; [exact Hg'|apply Rel].
        * injection H as <- <-. right. split; [reflexivity|]. rewrite r4, r6.
          eexists _, _, (os ++ [oy]). split; [reflexivity|]. split; [exact Ho''|]. split; [exact Hg'|apply Rel].
      + destruct T as (m' & ss' & E & C & S & S'). rewrite E. cbn [rbind]. rewrite N.eqb_refl. cbn [negb].
        injection H as <- <-. right. split; [reflexivity|]. eexists _, _, os. split; [reflexivity|]. split.
        { split; [|split]; cbn [w_pos w_st w_int].
          - eapply consists_ext; [|exact Ho1]. destruct C as (_ & _ & _ & F & C). split; [|exact C]. intros p. apply F. intros [].
          - eapply adds_ext; [|exact Ho2]. now split.
          - exact Ho3. }
        split; [exact Hg|]. constructor; cbn; auto.
  Qed.

  Lemma step_complete q q' : advance_step rt h alg term n q = Ok (false, q') -> q_complete q' = q_complete q.
  Proof.
    unfold advance_step. destruct (q_edges q) as [|[c next] edges].
    - destruct (q_pending q) as [|i rest]; [discriminate|]. destruct (i_state i); [discriminate|].
      destruct (read h (i_node i)); cbn [rbind]; try discriminate. now injection 1 as <-.
    - destruct (deref (q_current q)); cbn [rbind]; try discriminate.
      destruct (characteristic_vector _ _ _ _); cbn [rbind]; try discriminate.
      destruct (state_transition _ _ _ _ _) as [[st|]| |]; cbn [rbind]; try discriminate; [|now injection 1 as <-].
      destruct (read h next) as [nd| |]; cbn [rbind]; try discriminate.
      destruct (nfin nd); [destruct (_ <=? _)%N|]; try discriminate; now injection 1 as <-.
  Qed.

  Lemma loop_gone f : forall q q', advance_query_loop rt h alg term n f q = Ok q' -> q_complete q = true -> q_complete q' = false ->
    exists N, forall al order fuel rounds w base root os rest it, sound_allocators al -> (forall m, a_int al m <> o_ptr root) ->
      N <= fuel -> f <= rounds -> owns w base (os ++ rest) -> mget (w_int w) (o_ptr root) = None -> o_ptr root <> null ->
      related root os it q ->
      lazy_loop rt fuel al order h alg term n rounds w it = UB.
  Proof.
    induction f as [|f IH]; intros q q' H C C'; [discriminate|]. cbn [advance_query_loop] in H.
    destruct (advance_step rt h alg term n q) as [[b q1]| |] eqn:E; try discriminate. cbn [rbind] in H.
    destruct (step_gone E) as (N1 & S1).
    assert (D : b = true \/ (b = false /\ has_work q1 = true /\ advance_query_loop rt h alg term n f q1 = Ok q')).
    { destruct b; [now left|]. right. split; [reflexivity|]. destruct (has_work q1); [auto|].
      injection H as <-. rewrite (step_complete E) in C'. congruence. }
    destruct D as [->|(-> & W & H1)].
    - exists N1. intros al order fuel rounds w base root os rest it HA Fr Hf Hr Ho Hg Hn Hrel.
      destruct rounds as [|rounds]; [lia|]. cbn [lazy_loop].
      destruct (S1 al order fuel w base root os rest it HA Fr Hf Ho Hg Hn Hrel) as [->|(X & _)]; [reflexivity|discriminate].
    - destruct (IH q1 q' H1) as (N2 & S2); [rewrite (step_complete E); exact C|exact C'|].
      exists (Nat.max N1 N2). intros al order fuel rounds w base root os rest it HA Fr Hf Hr Ho Hg Hn Hrel.
      destruct rounds as [|rounds]; [lia|]. cbn [lazy_loop].
      destruct (S1 al order fuel w base root os rest it) as [->|(_ & w1 & it1 & os1 & -> & Ho1 & Hg1 & Hrel1)]; auto; [lia|].
      cbn [rbind]. rewrite (work_ok Hrel1), W.
      apply (S2 al order fuel rounds w1 base root os1 rest it1); auto; lia.
  Qed.

  Lemma advance_gone f q q' : advance_query rt h alg term n f q = Ok q' -> q_complete q' = false ->
    exists N, forall al order fuel w base root os rest it, sound_allocators al -> (forall m, a_int al m <> o_ptr root) ->
      N <= fuel -> owns w base (os ++ rest) -> mget (w_int w) (o_ptr root) = None -> o_ptr root <> null ->
      related root os it q ->
      lazy_advance rt fuel al order h alg term n w it = UB.
  Proof.
    unfold advance_query. intros H C'. destruct (has_work q) eqn:W; [|injection H as <-; discriminate].
    destruct (loop_gone H eq_refl C') as (N & S). exists (Nat.max N f).
    intros al order fuel w base root os rest it HA Fr Hf Ho Hg Hn Hrel. unfold lazy_advance. rewrite (work_ok Hrel), W.
    apply S with (base := base) (root := root) (os := os) (rest := rest); auto; try lia. now apply complete_related.
  Qed.

  Lemma advance_over q al order fuel w root os it : q_complete q = true ->
    has_work q = false -> related root os it q -> lazy_advance rt fuel al order h alg term n w it = Ok (w, it).
  Proof.
    intros C W Hrel. unfold lazy_advance. rewrite (work_ok Hrel), W. destruct Hrel as [r1 r2 r3 r4 r5 r6 r7 r8 r9].
    f_equal. f_equal. destruct it. cbn in *. unfold lazy_complete. cbn. congruence.
  Qed.
End Gone.
