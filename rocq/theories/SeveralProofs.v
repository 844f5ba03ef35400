(** * SeveralProofs: what several iterators of a transducer hold together. *)
From Coq Require Import Sorting.Sorted Sorting.Permutation.
From Verif Require Import Base Spec SpecTransducer ModelTransducer ModelDawg ModelQuery ModelState ModelMemory SpecDawg SpecState SpecMemory
  SpecBounds SpecQuery SpecHold AlignProofs TransProofs StateProofs ReadProofs TreeProofs HeapProofs IterProofs DawgProofs QueryProofs QueryFacts BoundProofs
  PointerProofs MemoryProofs ThrowProofs RunProofs HoldProofs PropsState PropsDawg PropsQuery PropsBounds.
Local Open Scope nat_scope.
Set Implicit Arguments. Unset Strict Implicit.

Section Several.
  Context {R : Type} (rt : result_type R).
  Variables (terms : list str) (h : heap) (d : dawg) (alg : algorithm).
  Hypothesis D : dictionary terms h d.
  Variable asked : str -> N -> Prop.
  Hypothesis asked_ok : forall q n, asked q n -> within_limits terms q n.

  Let B := Nat.pred (height (trie terms)).
  Let width (n : N) := most alg (N.to_nat n).

  Lemma depth_small q n : within_limits terms q n -> small_depth B.
  Proof.
    intros L. destruct (small_terms _ _ _ L) as (B' & SB & HB). unfold small_depth in *. unfold B. lia.
  Qed.

  (** The query on values that corresponds to an iterator, and the prefixes it has looked at. *)
  Definition abstract := option (str * N * nat * list str * query R).
  Record item := Item { x_own : list own; x_slot : slot (R := R); x_abs : abstract }.

  Definition fine (root : own) (e : item) : Prop :=
    match x_slot e, x_abs e with
    | None, None => x_own e = []
    | Some (q, n, k, it), Some (q', n', k', log, lit) =>
        (q, n, k) = (q', n', k') /\ small (width n) B lit /\ (exists v es Q, @QueryProofs.rquery R h alg q n B lit v es Q) /\
        related root (x_own e) it lit /\ bounded (width n) (x_own e) /\ length (x_own e) = length (filter (alive alg q n) log)
    | _, _ => False
    end.

  Definition all_owned (es : list item) : list own := concat (map x_own es).
  Lemma all_owned_middle a e b : Permutation (all_owned (a ++ e :: b)) (x_own e ++ all_owned (a ++ b)).
  Proof. unfold all_owned. rewrite !map_app, !concat_app. cbn [map concat]. apply Permutation_app_swap_app. Qed.

  Definition together (base : world) (root : own) (w : world) (ss : list slot) (abs : list abstract) : Prop :=
    exists es, ss = map x_slot es /\ abs = map x_abs es /\ Forall (fine root) es /\ owns w base (all_owned es).

  Definition placed (a : abstract) : Prop :=
    match a with None => True | Some (q, n, k, log, lit) => asked q n /\ works rt alg h d q n k log lit end.

  Lemma works_some q n k : within_limits terms q n -> exists log lit, works rt alg h d q n k log lit.
  Proof.
    intros L. destruct (C65_work R rt alg terms h d q n k _ D L (candidates_main _ _ _ _ _ _ D L)) as (log & it & W & _). eauto.
  Qed.

  Lemma increments_succ fuel q n : forall j (q0 : query R), log_increments rt h alg q n fuel (S j) q0 =
    do (l1, q1) <- log_increments rt h alg q n fuel j q0; do (l2, q2) <- log_advance rt h alg q n fuel q1; Ok (l1 ++ l2, q2).
  Proof.
    induction j as [|j IH]; intros q0.
    - cbn. destruct (log_advance rt h alg q n fuel q0) as [[l q1]| |]; cbn; auto. now rewrite app_nil_r.
    - change (log_increments rt h alg q n fuel (S (S j)) q0) with
        (do (l, q1) <- log_advance rt h alg q n fuel q0; do (l', q2) <- log_increments rt h alg q n fuel (S j) q1; Ok (l ++ l', q2)).
      change (log_increments rt h alg q n fuel (S j) q0) with
        (do (l, q1) <- log_advance rt h alg q n fuel q0; do (l', q2) <- log_increments rt h alg q n fuel j q1; Ok (l ++ l', q2)).
      destruct (log_advance rt h alg q n fuel q0) as [[l q1]| |]; cbn [rbind]; auto. rewrite IH.
      destruct (log_increments rt h alg q n fuel j q1) as [[l1 q2]| |]; cbn [rbind]; auto.
      destruct (log_advance rt h alg q n fuel q2) as [[l2 q3]| |]; cbn [rbind]; auto. now rewrite app_assoc.
  Qed.

  Lemma works_succ q n k log lit log' lit' : works rt alg h d q n k log lit -> works rt alg h d q n (S k) log' lit' ->
    exists f more, log_advance rt h alg q n f lit = Ok (more, lit') /\ log' = log ++ more.
  Proof.
    intros [e1 E1] [e2 E2]. exists (Nat.max e1 e2).
    specialize (E1 (Nat.max e1 e2) ltac:(lia)). specialize (E2 (Nat.max e1 e2) ltac:(lia)).
    set (f := Nat.max e1 e2) in *. clearbody f. clear e1 e2. unfold log_after in *. cbn [new_transducer tr_alg tr_root] in *.
    destruct (log_new rt h alg q n f _) as [[l0 q0]| |]; try discriminate. cbn [rbind] in *.
    rewrite increments_succ in E2.
    destruct (log_increments rt h alg q n f k q0) as [[l1 q1]| |]; try discriminate. cbn [rbind] in *. injection E1 as <- <-.
    destruct (log_advance rt h alg q n f q1) as [[l2 q2]| |]; try discriminate. cbn [rbind] in *. injection E2 as <- <-.
    exists l2. split; [reflexivity|]. now rewrite app_assoc.
  Qed.

  Lemma put_item (l : list item) a x b y : l = a ++ x :: b ->
    put (map x_slot l) (length a) (x_slot y) = map x_slot (a ++ y :: b).
  Proof.
    intros ->. rewrite !map_app. cbn [map]. rewrite <- (map_length x_slot a). apply put_app.
  Qed.

  Lemma nth_item (a b : list item) e : nth_error (map x_slot (a ++ e :: b)) (length a) = Some (x_slot e).
  Proof. rewrite map_app, nth_error_app2; rewrite map_length; [|lia]. rewrite Nat.sub_diag. reflexivity. Qed.

  Lemma no_item root es i : nth_error (map x_abs es) i = None \/ nth_error (map x_abs es) i = Some None -> Forall (fine root) es ->
    nth_error (map x_slot es) i = None \/ nth_error (map x_slot es) i = Some None.
  Proof.
    intros [H|H] F.
    - left. apply nth_error_None in H. apply nth_error_None. now rewrite map_length in *.
    - right. destruct (nth_map H) as (a & e & b & -> & <- & E). rewrite nth_item. apply Forall_app in F. destruct F as [_ F].
      inversion F as [|? ? G _]; subst. unfold fine in G. rewrite E in G. now destruct (x_slot e) as [[[[? ?] ?] ?]|].
  Qed.

  Lemma one_together c abs : Forall placed abs -> (forall q n, c = Open q n -> asked q n) ->
    exists N abs', Forall placed abs' /\
      forall al order fuel base root w ss, sound_allocators al -> N <= fuel ->
        readable base root -> denotes [root] (o_ptr root) (RootI (d_root d) [Pos 0 0 false]) ->
        together base root w ss abs ->
        exists w' ss', run_one rt fuel al order h alg (o_ptr root) c w ss = Ok (w', ss') /\ together base root w' ss' abs'.
  Proof using D asked_ok.
    intros HP HL. destruct (dictionary_unf _ _ _ D) as (U & _). destruct c as [q n|i|i].
    - specialize (HL q n eq_refl). pose proof HL as HQ. apply asked_ok in HL. destruct (works_some 0 HL) as (log & lit & Wk). pose proof Wk as [e E].
      pose proof HL as (Lq & Ln & Lt). pose proof (depth_small HL) as SB.
      exists (e + (6 * width n + B + 10)), (abs ++ [Some (q, n, 0, log, lit)]). split.
      { apply Forall_app. split; [exact HP|]. constructor; [|constructor]. split; auto. }
      intros al order fuel base root w ss HA Hf HR De (es & -> & -> & HG & Ho).
      specialize (E fuel ltac:(lia)). unfold log_after in E. cbn [new_transducer tr_alg tr_root log_increments] in E.
      destruct (log_new rt h alg q n fuel _) as [[l0 q0]| |] eqn:E0; try discriminate. cbn [rbind] in E. rewrite app_nil_r in E. injection E as <- <-.
      destruct (@held_begin R rt h alg q n B (width n) Lq Ln SB (le_n _) al order fuel base root (all_owned es) HA ltac:(lia) HR
        (d_root d) (trie terms) U ltac:(unfold B; lia) De fuel w l0 q0 Ho E0 (le_n _)) as (w' & it' & E' & Sm & Rq & os & Ho' & Rel & Bd & Len).
      cbn [run_one]. rewrite E'. cbn [rbind]. eexists _, _. split; [reflexivity|].
      exists (es ++ [Item os (Some (q, n, 0, it')) (Some (q, n, 0, l0, q0))]).
      split; [now rewrite map_app|]. split; [now rewrite map_app|].
      split; [apply Forall_app; split; [exact HG|constructor; [|constructor]]|].
      + unfold fine. cbn [x_slot x_abs x_own]. auto 10.
      + eapply owns_perm; [apply Permutation_sym, all_owned_middle|]. rewrite app_nil_r. exact Ho'.
    - destruct (nth_error abs i) as [[[[[[q n] k] log] lit]|]|] eqn:Ei.
      + assert (Hp : placed (Some (q, n, k, log, lit))).
        { rewrite Forall_forall in HP. apply HP. eapply nth_error_In; eauto. }
        destruct Hp as [HQ Wk]. pose proof (asked_ok HQ) as L. destruct (works_some (S k) L) as (log' & lit' & Wk').
        destruct (works_succ Wk Wk') as (f & more & E & ->).
        pose proof L as (Lq & Ln & Lt). pose proof (depth_small L) as SB.
        destruct (@nth_error_split _ abs i _ Ei) as (a & b & Eab & La).
        exists (f + (6 * width n + B + 10)), (a ++ Some (q, n, S k, log ++ more, lit') :: b). split.
        { subst abs. apply Forall_app in HP. destruct HP as [HP1 HP2]. inversion HP2; subst.
          apply Forall_app. split; [auto|]. constructor; [split; auto|auto]. }
        intros al order fuel base root w ss HA Hf HR De (es & -> & Ea & HG & Ho). rewrite Ea in Ei.
        destruct (nth_map Ei) as (ea & e & eb & -> & Le & He). clear Ei. destruct Le.
        assert (Eab' : map x_abs (ea ++ e :: eb) = a ++ Some (q, n, k, log, lit) :: b) by (rewrite <- Ea; exact Eab).
        pose proof HG as HG0. apply Forall_app in HG0. destruct HG0 as [HG1 HG2].
        inversion HG2 as [|? ? G1 G2]; subst. unfold fine in G1. rewrite He in G1.
        destruct (x_slot e) as [[[[q0 n0] k0] it]|] eqn:Es; [|contradiction].
        destruct G1 as (G1 & Sm & Rq & Rel & Bd & Len). injection G1 as -> -> ->.
        apply (owns_perm (@all_owned_middle _ _ _)) in Ho.
        assert (Hh : held h alg q n B (width n) base root (all_owned (ea ++ eb)) w it lit (length (filter (alive alg q n) log))).
        { split; [exact Sm|]. split; [exact Rq|]. exists (x_own e). auto. }
        assert (Hf' : 6 * width n + B + 10 <= fuel) by lia. assert (Hf2 : f <= fuel) by lia.
        destruct (held_advance Lq Ln SB (le_n _) order HA Hf' HR Hh E Hf2) as
          (w' & it' & E' & Sm' & Rq' & os' & Ho' & Rel' & Bd' & Len').
        cbn [run_one]. rewrite nth_item, Es, E'. cbn [rbind].
        set (e' := Item os' (Some (q, n, S k, it')) (Some (q, n, S k, log ++ more, lit'))).
        eexists _, _. split; [reflexivity|]. exists (ea ++ e' :: eb).
        split; [exact (put_item e' eq_refl)|].
        split.
        { rewrite map_app in Eab' |- *. cbn [map] in *. rewrite He in Eab'.
          apply app_inj_len in Eab'; [|now rewrite map_length]. destruct Eab' as [<- Eab'].
          injection Eab' as <-. reflexivity. }
        split; [apply Forall_app; split; [auto|constructor; [|auto]]|].
        * unfold fine, e'. cbn [x_slot x_abs x_own]. rewrite filter_app, app_length. auto 10.
        * eapply owns_perm; [apply Permutation_sym, all_owned_middle|]. exact Ho'.
      + exists 0, abs. split; [exact HP|].
        intros al order fuel base root w ss _ _ _ De I. exists w, ss. split; [|exact I]. destruct I as (es & -> & -> & HG & _). cbn [run_one].
        destruct (no_item (or_intror Ei) HG) as [-> | ->]; reflexivity.
      + exists 0, abs. split; [exact HP|].
        intros al order fuel base root w ss _ _ _ De I. exists w, ss. split; [|exact I]. destruct I as (es & -> & -> & HG & _). cbn [run_one].
        destruct (no_item (or_introl Ei) HG) as [-> | ->]; reflexivity.
    - destruct (nth_error abs i) as [[[[[[q n] k] log] lit]|]|] eqn:Ei.
      + destruct (@nth_error_split _ abs i _ Ei) as (a & b & Eab & La).
        exists (S (width n)), (a ++ None :: b). split.
        { subst abs. apply Forall_app in HP. destruct HP as [HP1 HP2]. inversion HP2; subst.
          apply Forall_app. split; [auto|]. constructor; [exact I|auto]. }
        intros al order fuel base root w ss HA Hf HR De (es & -> & Ea & HG & Ho). rewrite Ea in Ei.
        destruct (nth_map Ei) as (ea & e & eb & -> & Le & He). clear Ei. destruct Le.
        assert (Eab' : map x_abs (ea ++ e :: eb) = a ++ Some (q, n, k, log, lit) :: b) by (rewrite <- Ea; exact Eab).
        pose proof HG as HG0. apply Forall_app in HG0. destruct HG0 as [HG1 HG2].
        inversion HG2 as [|? ? G1 G2]; subst. unfold fine in G1. rewrite He in G1.
        destruct (x_slot e) as [[[[q0 n0] k0] it]|] eqn:Es; [|contradiction].
        destruct G1 as (G1 & Sm & Rq & Rel & Bd & Len). injection G1 as -> -> ->.
        apply (owns_perm (@all_owned_middle _ _ _)) in Ho.
        destruct (@delete_owns base (all_owned (ea ++ eb)) (width n) fuel (x_own e) Hf w Ho Bd) as (w' & E' & Ho').
        cbn [run_one]. rewrite nth_item, Es. unfold lazy_destroy. rewrite (rel_owned Rel), E'. cbn [rbind].
        set (e' := Item [] None None).
        eexists _, _. split; [reflexivity|]. exists (ea ++ e' :: eb).
        split; [exact (put_item e' eq_refl)|].
        split.
        { rewrite map_app in Eab' |- *. cbn [map] in *. rewrite He in Eab'.
          apply app_inj_len in Eab'; [|now rewrite map_length]. destruct Eab' as [<- Eab'].
          injection Eab' as <-. reflexivity. }
        split; [apply Forall_app; split; [auto|constructor; [reflexivity|auto]]|].
        eapply owns_perm; [apply Permutation_sym, all_owned_middle|]. exact Ho'.
      + exists 0, abs. split; [exact HP|].
        intros al order fuel base root w ss _ _ _ De I. exists w, ss. split; [|exact I]. destruct I as (es & -> & -> & HG & _). cbn [run_one].
        destruct (no_item (or_intror Ei) HG) as [-> | ->]; reflexivity.
      + exists 0, abs. split; [exact HP|].
        intros al order fuel base root w ss _ _ _ De I. exists w, ss. split; [|exact I]. destruct I as (es & -> & -> & HG & _). cbn [run_one].
        destruct (no_item (or_introl Ei) HG) as [-> | ->]; reflexivity.
  Qed.

  Lemma run_together cs : forall abs, Forall placed abs -> (forall q n, In (Open q n) cs -> asked q n) ->
    exists N abs', Forall placed abs' /\
      forall al order fuel base root w ss, sound_allocators al -> N <= fuel ->
        readable base root -> denotes [root] (o_ptr root) (RootI (d_root d) [Pos 0 0 false]) ->
        together base root w ss abs ->
        exists w' ss', run rt fuel al order h alg (o_ptr root) cs w ss = Ok (w', ss') /\ together base root w' ss' abs'.
  Proof using D asked_ok.
    induction cs as [|c cs IH]; intros abs HP HL.
    - exists 0, abs. split; [exact HP|]. intros. exists w, ss. split; [reflexivity|assumption].
    - destruct (@one_together c abs HP) as (N1 & abs1 & HP1 & S1).
      { intros q n ->. apply HL. now left. }
      destruct (IH abs1 HP1) as (N2 & abs2 & HP2 & S2). { intros q n Hin. apply HL. now right. }
      exists (Nat.max N1 N2), abs2. split; [exact HP2|].
      intros al order fuel base root w ss HA Hf HR De I.
      destruct (S1 al order fuel base root w ss) as (w1 & ss1 & E1 & I1); auto; try lia.
      destruct (S2 al order fuel base root w1 ss1) as (w2 & ss2 & E2 & I2); auto; try lia.
      exists w2, ss2. cbn [run]. rewrite E1. cbn [rbind]. split; [exact E2|exact I2].
  Qed.
End Several.
