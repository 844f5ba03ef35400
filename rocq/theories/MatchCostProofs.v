(** * MatchCostProofs: how often building a dictionary compares nodes. *)
From Coq Require Import Sorting.Sorted Sorting.Permutation.
From Verif Require Import Base Spec ModelHash ModelDawg ModelSerial ModelUseCost ModelMatchCost SpecDawg SpecCost SpecUseCost SpecMatchCost TreeProofs
  HeapProofs BuildProofs BuildProofs2 DawgProofs IterProofs BoundProofs DestroyProofs BuildCostProofs UseCostProofs.
Local Open Scope nat_scope.

(** ** One comparison: as many calls as the key has prefixes, at most *)
Lemma tlog_length : forall ta tb, length (snd (tlog ta tb)) <= tsize ta /\ (fst (tlog ta tb) = true -> length (snd (tlog ta tb)) = tsize ta).
Proof.
  induction ta as [fa ea IH] using tree_ind'. intros tb. cbn [tlog tsize].
  assert (Le : 1 <= S (fold_right (fun e m => tsize (snd e) + m) 0 ea)) by lia.
  destruct (negb (Bool.eqb fa (tfin tb))); [cbn [fst snd length]; split; [lia|discriminate]|].
  destruct (negb (Nat.eqb (length ea) (length (tedges tb)))); [cbn [fst snd length]; split; [lia|discriminate]|]. clear Le.
  assert (X : length (snd (tlog_each tlog (tedges tb) ea)) <= fold_right (fun e m => tsize (snd e) + m) 0 ea /\
    (fst (tlog_each tlog (tedges tb) ea) = true -> length (snd (tlog_each tlog (tedges tb) ea)) = fold_right (fun e m => tsize (snd e) + m) 0 ea)).
  { induction IH as [|[c t] es H Hs IHs]; cbn [tlog_each fold_right snd]; [split; auto|].
    destruct (edge_get (tedges tb) c) as [u|]; [|cbn [fst snd length]; split; [lia|discriminate]].
    destruct (H u) as (L & E). cbn [snd] in L, E. destruct (tlog t u) as [r calls]. cbn [fst snd] in *. destruct r.
    - destruct (tlog_each tlog (tedges tb) es) as [r' more]. cbn [fst snd] in *. rewrite app_length, map_length. rewrite (E eq_refl).
      split; [lia|]. intros T'. destruct IHs as (_ & IHs). now rewrite (IHs T').
    - cbn [fst snd]. rewrite map_length. split; [lia|discriminate]. }
  destruct (tlog_each tlog (tedges tb) ea) as [r calls]. cbn [fst snd length] in *. split; [lia|]. intros T'. destruct X as (_ & X). now rewrite (X T').
Qed.

Lemma tlog_fst : forall h a b ta tb, nunf h a ta -> nunf h b tb -> (fst (tlog ta tb) = true <-> ta = tb).
Proof.
  intros h a b ta tb A Bb. destruct (node_eq_all (height ta) h a b ta tb A Bb (le_n _)) as (r & E & I).
  specialize (E _ (le_n _)). rewrite c_node_eq_fst, (c_node_eq_ok (height ta) h a b ta tb A Bb (le_n _)) in E.
  destruct (tlog ta tb) as [x l]. cbn [rbind] in E. injection E as ->. exact I.
Qed.

(** ** Lookup *)
Definition entries_ok (h : heap) (m : list entry) : Prop :=
  forall e, In e m -> exists te, nunf h (e_key e) te /\ e_hash e = thash te /\ e_ptr e <> null.
(** No entry but an equal one has the hash code of [t]. *)
Definition alone (h : heap) (m : list entry) (t : tree) : Prop :=
  forall e te, In e m -> nunf h (e_key e) te -> thash te = thash t -> te = t.

(** The calls that a comparison of [t] with [r] takes if they have the same code. *)
Definition clash (t r : tree) : nat := if N.eqb (thash r) (thash t) then length (snd (tlog t r)) else 0.
Definition clashes (t : tree) (R : list tree) : nat := list_sum (map (clash t) R).

Lemma e_map_find_ok : forall B h key t m, nunf h key t -> height t <= B -> entries_ok h m ->
  exists p calls, (forall fuel, B <= fuel -> map_find fuel h (thash t) key m = Ok p) /\
    (forall fuel, B <= fuel -> e_map_find fuel h (thash t) key m = Ok (p, calls)) /\ calls <= length m * tsize t /\
    ((p = null /\ (alone h m t -> calls = 0) /\ forall R, Forall2 (fun e r => nunf h (e_key e) r) m R -> calls = clashes t R) \/
     (p <> null /\ tsize t <= calls /\ (alone h m t -> calls = tsize t))).
Proof.
  intros B h key t m K H. induction m as [|e m IH]; intros Hm.
  - exists null, 0. split; [auto|]. split; [auto|]. split; [cbn; lia|]. left. split; [auto|]. split; [auto|]. intros R F. inversion F. reflexivity.
  - destruct IH as (p & calls & Ep & Ec & Le & D); [intros x J; apply Hm; now right|].
    destruct (Hm e (or_introl eq_refl)) as (te & Ne & He & Pe).
    assert (Al : alone h (e :: m) t -> alone h m t) by (intros A x tx J; apply A; now right).
    assert (Q : forall fuel, B <= fuel -> c_node_eq fuel h key (e_key e) = Ok (tlog t te)) by (intros; apply c_node_eq_ok; auto; lia).
    assert (Qn : forall fuel, B <= fuel -> node_eq fuel h key (e_key e) = Ok (fst (tlog t te))).
    { intros fuel Hf. rewrite c_node_eq_fst, Q by auto. now destruct (tlog t te). }
    destruct (tlog_length t te) as (L1 & L2). pose proof (tlog_fst h key (e_key e) t te K Ne) as Sf.
    destruct (N.eqb (e_hash e) (thash t)) eqn:Eh.
    + destruct (tlog t te) as [[|] log] eqn:Et; cbn [fst snd] in *.
      * exists (e_ptr e), (length log). split; [intros; cbn [map_find]; rewrite Eh, Qn by auto; reflexivity|].
        split; [intros; cbn [e_map_find]; rewrite Eh, Q by auto; reflexivity|]. rewrite (L2 eq_refl). split; [cbn [length]; lia|]. right. auto.
      * exists p, (length log + calls). split; [intros; cbn [map_find]; rewrite Eh, Qn by auto; cbn [rbind]; auto|].
        split; [intros; cbn [e_map_find]; rewrite Eh, Q by auto; cbn [rbind]; rewrite Ec by auto; reflexivity|].
        split; [cbn [length]; lia|].
        assert (Na : ~ alone h (e :: m) t).
        { intros A. apply N.eqb_eq in Eh. assert (te = t) by (apply (A e te); [now left|exact Ne|congruence]). subst te.
          destruct Sf as (_ & Sf). discriminate (Sf eq_refl). }
        destruct D as [(D1 & D2 & Dc)|(D1 & D2 & D3)]; [left|right]; split; auto; [split; [tauto|]|split; [lia|tauto]].
        intros R F. inversion F as [|? r ? R' Nr F']; subst. assert (r = te) as -> by (eapply nunf_det; eauto).
        unfold clashes. cbn [map]. unfold list_sum. cbn [fold_right]. unfold clash at 1. rewrite <- He, Eh, Et. cbn [snd]. rewrite (Dc R' F'). reflexivity.
    + exists p, calls. split; [intros; cbn [map_find]; rewrite Eh; auto|]. split; [intros; cbn [e_map_find]; rewrite Eh; auto|].
      split; [cbn [length]; lia|]. destruct D as [(D1 & D2 & Dc)|(D1 & D2 & D3)]; [left|right]; auto. split; [auto|]. split; [auto|].
      intros R F. inversion F as [|? r ? R' Nr F']; subst. assert (r = te) as -> by (eapply nunf_det; eauto).
      unfold clashes. cbn [map]. unfold list_sum. cbn [fold_right]. unfold clash at 1. rewrite <- He, Eh. rewrite (Dc R' F'). reflexivity.
Qed.

Lemma e_map_replace_ok : forall B h key t p m, nunf h key t -> height t <= B -> entries_ok h m ->
  (forall e, In e m -> ~ nunf h (e_key e) t) ->
  exists calls, (forall fuel, B <= fuel -> e_map_replace fuel h (thash t) key p m = Ok (m ++ [Entry (thash t) key p], calls)) /\
    calls <= length m * tsize t /\ (alone h m t -> calls = 0) /\
    forall R, Forall2 (fun e r => nunf h (e_key e) r) m R -> calls = clashes t R.
Proof.
  intros B h key t p m K H. induction m as [|e m IH]; intros Hm Hn.
  - exists 0. split; [auto|]. split; [cbn; lia|]. split; [auto|]. intros R F. inversion F. reflexivity.
  - destruct IH as (calls & Ec & Le & D & Dc); [intros x J; apply Hm; now right|intros x J; apply Hn; now right|].
    destruct (Hm e (or_introl eq_refl)) as (te & Ne & He & Pe).
    assert (Al : alone h (e :: m) t -> alone h m t) by (intros A x tx J; apply A; now right).
    assert (Q : forall fuel, B <= fuel -> c_node_eq fuel h key (e_key e) = Ok (tlog t te)) by (intros; apply c_node_eq_ok; auto; lia).
    destruct (tlog_length t te) as (L1 & L2). pose proof (tlog_fst h key (e_key e) t te K Ne) as Sf.
    destruct (N.eqb (e_hash e) (thash t)) eqn:Eh.
    + destruct (tlog t te) as [[|] log] eqn:Et; cbn [fst snd] in *.
      * destruct Sf as (Sf & _). specialize (Sf eq_refl). subst te. destruct (Hn e (or_introl eq_refl) Ne).
      * exists (length log + calls). split; [intros; cbn [e_map_replace app]; rewrite Eh, Q by auto; cbn [rbind]; rewrite Ec by auto; reflexivity|].
        split; [cbn [length]; lia|]. split.
        -- intros A. exfalso. apply N.eqb_eq in Eh. assert (te = t) by (apply (A e te); [now left|exact Ne|congruence]). subst te.
           destruct (Hn e (or_introl eq_refl) Ne).
        -- intros R F. inversion F as [|? r ? R' Nr F']; subst. assert (r = te) as -> by (eapply nunf_det; eauto).
           unfold clashes. cbn [map]. unfold list_sum. cbn [fold_right]. unfold clash at 1. rewrite <- He, Eh, Et. cbn [snd]. rewrite (Dc R' F'). reflexivity.
    + exists calls. split; [intros; cbn [e_map_replace app]; rewrite Eh, Ec by auto; reflexivity|]. split; [cbn [length]; lia|]. split; [auto|].
      intros R F. inversion F as [|? r ? R' Nr F']; subst. assert (r = te) as -> by (eapply nunf_det; eauto).
      unfold clashes. cbn [map]. unfold list_sum. cbn [fold_right]. unfold clash at 1. rewrite <- He, Eh. rewrite (Dc R' F'). reflexivity.
Qed.

Lemma map_replace_ptr : forall fuel h code key p m e, map_replace fuel h code key p m = Ok (m ++ [e]) -> e_ptr e = p.
Proof.
  intros fuel h code key p. induction m as [|x m IH]; intros e E; cbn [map_replace app] in E; [now injection E as <-|].
  destruct (N.eqb (e_hash x) code).
  - destruct (node_eq fuel h key (e_key x)) as [[|]| |]; try discriminate; cbn [rbind] in E.
    + injection E as _ E. apply (f_equal (@length _)) in E. rewrite app_length in E. cbn in E. lia.
    + destruct (map_replace fuel h code key p m) as [r| |]; try discriminate. cbn [rbind] in E. injection E as ->. now apply IH.
  - destruct (map_replace fuel h code key p m) as [r| |]; try discriminate. cbn [rbind] in E. injection E as ->. now apply IH.
Qed.

(** ** One iteration of minimize *)
Lemma e_minimize_step : forall B h0 h root c s t un m fl frs t0,
  inv B h0 h root (Work (Trans c s t :: un) m fl) frs t0 -> height (fill frs t0) <= B ->
  exists h' m' frs' t0' calls,
    (forall fuel k, B <= fuel ->
      minimize_loop (S k) fuel h (Work (Trans c s t :: un) m fl) = minimize_loop k fuel h' (Work un m' fl)) /\
    (forall fuel k, B <= fuel ->
      e_minimize_loop (S k) fuel h (Work (Trans c s t :: un) m fl) =
      do (h2, w2, more) <- e_minimize_loop k fuel h' (Work un m' fl); Ok (h2, w2, calls + more)) /\
    inv B h0 h' root (Work un m' fl) frs' t0' /\
    fill frs' t0' = fill frs t0 /\
    edge_get (tedges t0') c = Some t0 /\
    (forall e r, In e m -> unf h (e_ptr e) r -> unf h' (e_ptr e) r) /\
    calls <= 2 * length m * tsize t0 /\
    ((m' = m /\ tsize t0 <= calls /\ (exists e, In e m /\ unf h (e_ptr e) t0) /\
      ((forall e r, In e m -> unf h (e_ptr e) r -> thash r = thash t0 -> r = t0) -> calls = tsize t0)) \/
     (exists e, m' = m ++ [e] /\ unf h' (e_ptr e) t0 /\ (forall e', In e' m -> ~ unf h (e_ptr e') t0) /\
      ((forall e r, In e m -> unf h (e_ptr e) r -> thash r = thash t0 -> r = t0) -> calls = 0) /\
      forall R, Forall2 (fun e r => unf h (e_ptr e) r) m R -> calls = 2 * clashes t0 R)).
Proof.
  intros B h0 h root c s t un m fl frs t0 I Ht.
  assert (Ht0 : height t0 <= B) by (pose proof (height_fill frs t0); lia).
  destruct (c_minimize_step B h0 h root c s t un m fl frs t0 I Ht) as (h' & m' & frs' & t0' & n' & cc & E & _ & I' & Fl & _ & _ & Et & Fr & Lc).
  pose proof (iv_top _ _ _ _ _ _ _ I) as Ut. cbn [w_unchecked top t_target] in Ut.
  destruct (unf_inv _ _ _ Ut) as (nt & NNt & Gt & Nt).
  pose proof (iv_min _ _ _ _ _ _ _ I) as M. cbn [w_minimized] in M.
  pose proof (iv_min _ _ _ _ _ _ _ I') as M'. cbn [w_minimized] in M'.
  assert (Ment : entries_ok h m).
  { intros e J. destruct (mi_ent _ _ _ M e J) as (? & _ & te & ? & ? & _). eauto. }
  destruct (e_map_find_ok B h nt t0 m Nt Ht0 Ment) as (p & calls & Ep & Ec & Le & D).
  destruct (map_find_ok B h nt t0 m Nt Ht0 Ment) as (p2 & Ep2 & D2).
  assert (p2 = p) as -> by (specialize (Ep B (le_n _)); rewrite (Ep2 B (le_n _)) in Ep; now injection Ep). clear Ep2.
  assert (Ef : forall fuel, B <= fuel -> minimized_node fuel h m t = Ok p).
  { intros fuel Hf. unfold minimized_node. rewrite (read_ok _ _ _ NNt Gt). cbn [rbind].
    rewrite (node_hash_ok fuel h nt t0 Nt) by lia. cbn [rbind]. auto. }
  assert (Ee : forall fuel, B <= fuel -> e_minimized_node fuel h m t = Ok (p, calls)).
  { intros fuel Hf. unfold e_minimized_node. rewrite (read_ok _ _ _ NNt Gt). cbn [rbind].
    rewrite (node_hash_ok fuel h nt t0 Nt) by lia. cbn [rbind]. auto. }
  assert (Al : (forall e r, In e m -> unf h (e_ptr e) r -> thash r = thash t0 -> r = t0) -> alone h m t0).
  { intros A e te J Ne Q. apply (A e te J); [|exact Q]. destruct (mi_ent _ _ _ M e J) as (NN & Ge & _). eapply unf_intro; eauto. }
  destruct (N.eqb_spec p null) as [Np|Np].
  - (* new *)
    destruct D2 as [(_ & D2)|(e & J & -> & _)]; [|destruct (Ment e J) as (_ & _ & _ & X); contradiction].
    destruct D as [(_ & D & Dc)|(X & _)]; [|contradiction].
    destruct Lc as [(_ & _ & e & J & Ue)|(e & Em & _ & Ue & Nw)].
    { exfalso. apply (D2 e J). destruct (mi_ent _ _ _ M e J) as (NN & Ge & _). destruct (unf_inv _ _ _ Ue) as (n3 & _ & G3 & N3). rewrite Ge in G3. now injection G3 as <-. }
    assert (K : forall fuel, B <= fuel -> add_edge h s c t = Ok h' /\ map_assign fuel h' m t = Ok m').
    { intros fuel Hf. pose proof (E fuel 0 Hf) as X. cbn [minimize_loop w_unchecked w_minimized w_floating] in X.
      rewrite Ef in X by auto. cbn [rbind] in X. apply N.eqb_eq in Np. rewrite Np in X.
      destruct (add_edge h s c t) as [h1| |]; try discriminate. cbn [rbind] in X.
      destruct (map_assign fuel h1 m t) as [m1| |] eqn:Am; try discriminate. cbn [rbind] in X.
      injection X as -> ->. auto. }
    assert (Pt : e_ptr e = t).
    { destruct (K B (le_n _)) as (_ & X). unfold map_assign in X. destruct (read h' t) as [n2| |]; try discriminate. cbn [rbind] in X.
      destruct (node_hash B h' n2) as [code| |]; try discriminate. cbn [rbind] in X. rewrite Em in X. exact (map_replace_ptr _ _ _ _ _ _ _ X). }
    rewrite Pt in Ue. destruct (unf_inv _ _ _ Ue) as (n2 & NN2 & G2 & N2).
    assert (Mall : forall x, In x m -> exists te, nunf h' (e_key x) te /\ e_hash x = thash te /\ e_ptr x <> null /\ unf h (e_ptr x) te).
    { intros x J. assert (J' : In x m') by (rewrite Em; apply in_or_app; now left).
      destruct (mi_ent _ _ _ M x J) as (NN & Gx & tx & Nx & Hx & _). destruct (mi_ent _ _ _ M' x J') as (_ & Gx' & tx' & Nx' & Hx' & _).
      pose proof (Fr x tx J (unf_intro _ _ _ _ NN Gx Nx)) as Ux. assert (tx' = tx) as -> by (eapply unf_det; [eapply unf_intro; eauto|exact Ux]).
      exists tx. split; [exact Nx'|]. split; [exact Hx|]. split; [exact NN|]. eapply unf_intro; eauto. }
    destruct (e_map_replace_ok B h' n2 t0 t m N2 Ht0) as (calls2 & Er & Le2 & Al2 & Dc2).
    { intros x J. destruct (Mall x J) as (te & A1 & A2 & A3 & _). eauto. }
    { intros x J Nx. destruct (Mall x J) as (te & A1 & _ & _ & A4). assert (te = t0) as -> by (eapply nunf_det; eauto). exact (Nw x J A4). }
    assert (Ea : forall fuel, B <= fuel -> e_map_assign fuel h' m t = Ok (m', calls2)).
    { intros fuel Hf. unfold e_map_assign. rewrite (read_ok _ _ _ NN2 G2). cbn [rbind]. rewrite (node_hash_ok fuel h' n2 t0 N2) by lia. cbn [rbind].
      rewrite Er by auto. f_equal. f_equal. destruct (K B (le_n _)) as (_ & X). unfold map_assign in X.
      rewrite (read_ok _ _ _ NN2 G2) in X. cbn [rbind] in X. rewrite (node_hash_ok B h' n2 t0 N2) in X by lia. cbn [rbind] in X.
      rewrite (map_replace_new B h' n2 t0 t m N2) in X; [now injection X as <-|lia| | |lia].
      - intros x J. destruct (Mall x J) as (te & A1 & A2 & A3 & _). eauto.
      - intros x J Nx. destruct (Mall x J) as (te & A1 & _ & _ & A4). assert (te = t0) as -> by (eapply nunf_det; eauto). exact (Nw x J A4). }
    exists h', m', frs', t0', (calls + calls2). split; [exact E|]. split; [|split; [exact I'|split; [exact Fl|split; [exact Et|split; [exact Fr|split; [lia|]]]]]].
    + intros fuel k Hf. cbn [e_minimize_loop w_unchecked w_minimized w_floating]. rewrite Ee by auto. cbn [rbind].
      apply N.eqb_eq in Np. rewrite Np. destruct (K fuel Hf) as (-> & _). cbn [rbind]. rewrite Ea by auto. cbn [rbind]. reflexivity.
    + right. exists e. rewrite Pt. split; [exact Em|]. split; [exact Ue|]. split; [exact Nw|]. split.
      * intros A. rewrite (D (Al A)), Al2; [reflexivity|].
        intros x tx J Nx Q. destruct (Mall x J) as (te & A1 & _ & _ & A4). assert (te = tx) as -> by (eapply nunf_det; eauto). exact (A x tx J A4 Q).
      * intros R F.
        assert (X : Forall2 (fun e r => nunf h (e_key e) r) m R /\ Forall2 (fun e r => nunf h' (e_key e) r) m R).
        { assert (Y : forall x r, In x m -> unf h (e_ptr x) r -> nunf h (e_key x) r /\ nunf h' (e_key x) r).
          { intros x r J Ux. destruct (Mall x J) as (te & A1 & _ & _ & A4). assert (te = r) as -> by (eapply unf_det; eauto). split; [|exact A1].
            destruct (mi_ent _ _ _ M x J) as (_ & Gx & _). destruct (unf_inv _ _ _ Ux) as (n3 & _ & G3 & N3). rewrite Gx in G3. now injection G3 as <-. }
          clear -F Y. induction F as [|x r m R Ux F IH]; [split; constructor|]. destruct IH as (IH1 & IH2); [intros; apply Y; auto; now right|].
          destruct (Y x r (or_introl eq_refl) Ux). split; constructor; auto. }
        rewrite (Dc R (proj1 X)), (Dc2 R (proj2 X)). lia.
  - (* known *)
    destruct D as [(X & _)|(_ & D & Da)]; [contradiction|].
    destruct D2 as [(X & _)|(e & J & Pe & Ne)]; [contradiction|].
    assert (Ue : unf h (e_ptr e) t0) by (destruct (mi_ent _ _ _ M e J) as (NN & Ge & _); eapply unf_intro; eauto).
    destruct Lc as [(-> & _)|(e' & _ & _ & _ & Nw)]; [|destruct (Nw e J Ue)].
    assert (K : add_edge h s c p = Ok h').
    { pose proof (E B 0 (le_n _)) as X. cbn [minimize_loop w_unchecked w_minimized w_floating] in X.
      rewrite Ef in X by auto. cbn [rbind] in X. apply N.eqb_neq in Np. rewrite Np in X.
      destruct (add_edge h s c p) as [h1| |]; try discriminate. cbn [rbind] in X. now injection X as ->. }
    exists h', m, frs', t0', calls. split; [exact E|]. split; [|split; [exact I'|split; [exact Fl|split; [exact Et|split; [exact Fr|split; [lia|]]]]]].
    + intros fuel k Hf. cbn [e_minimize_loop w_unchecked w_minimized w_floating]. rewrite Ee by auto. cbn [rbind].
      apply N.eqb_neq in Np. rewrite Np, K. cbn [rbind]. reflexivity.
    + left. split; [reflexivity|]. split; [exact D|]. split; [eauto|]. intros A. apply Da, Al, A.
Qed.

(** ** minimize *)
Definition distinct_codes (R : list tree) : Prop := forall r s, In r R -> In s R -> thash r = thash s -> r = s.

(** The clashes of the trees [L] with those before them, after [seen]. *)
Fixpoint pairs (g : tree -> tree -> nat) (seen L : list tree) : nat :=
  match L with [] => 0 | t :: L' => list_sum (map (g t) seen) + pairs g (seen ++ [t]) L' end.

Lemma pairs_app : forall g a b seen, pairs g seen (a ++ b) = pairs g seen a + pairs g (seen ++ a) b.
Proof.
  intros g. induction a as [|t a IH]; intros b seen; cbn [app pairs]; [now rewrite app_nil_r|]. rewrite IH, <- app_assoc. cbn [app]. lia.
Qed.

Lemma registered_tree : forall h m R e r, Forall2 (fun e r => unf h (e_ptr e) r) m R -> In e m -> unf h (e_ptr e) r -> In r R.
Proof.
  intros h m R e r F. induction F as [|x s m R U F IH]; intros J V; [destruct J|]. destruct J as [->|J]; [left; eapply unf_det; eauto|right; auto].
Qed.

Lemma e_minimize_loop_ok : forall k B h0 h root w frs t0,
  inv B h0 h root w frs t0 -> height (fill frs t0) <= B -> k <= length (w_unchecked w) -> tsorted (fill frs t0) ->
  exists h' w' calls,
    (forall fuel, B <= fuel -> minimize_loop k fuel h w = Ok (h', w')) /\
    (forall fuel, B <= fuel -> e_minimize_loop k fuel h w = Ok (h', w', calls)) /\
    exists extra, off (fill frs t0) (labels (skipn k (w_unchecked w))) = off (fill frs t0) (labels (w_unchecked w)) + extra /\
      forall R, registered h (w_minimized w) R -> settled (fill frs t0) (labels (w_unchecked w)) R ->
        exists new, registered h' (w_minimized w') (R ++ new) /\ settled (fill frs t0) (labels (skipn k (w_unchecked w))) (R ++ new) /\
          extra <= calls + sizes new /\ calls <= 2 * length (R ++ new) * extra /\
          (distinct_codes (R ++ new) -> calls + sizes new = extra) /\ 2 * pairs clash R new <= calls.
Proof.
  induction k as [|k IH]; intros B h0 h root w frs t0 I Ht Lk So.
  - exists h, w, 0. split; [reflexivity|]. split; [reflexivity|]. exists 0. cbn [skipn]. split; [lia|].
    intros R Rg St. exists []. rewrite app_nil_r. split; [exact Rg|]. split; [exact St|]. cbn [sizes fold_right pairs]. split; [lia|]. split; [lia|]. split; [reflexivity|lia].
  - destruct w as [[|[c s t] un] m fl]; cbn [w_unchecked length] in *; [lia|].
    destruct (e_minimize_step B h0 h root c s t un m fl frs t0 I Ht)
      as (h1 & m1 & frs1 & t1 & calls1 & E & Ec & I1 & Fl & Et & Fr & Up & Lc).
    destruct (IH B h0 h1 root (Work un m1 fl) frs1 t1 I1) as (h2 & w2 & calls2 & E2 & Ec2 & extra & X & Rg); try (rewrite Fl; auto).
    { cbn. lia. }
    cbn [w_unchecked] in X. rewrite Fl in X.
    exists h2, w2, (calls1 + calls2). split; [intros; rewrite E; auto|]. split; [intros; rewrite Ec, Ec2 by auto; reflexivity|].
    assert (Et' : edge_get (tedges (sub (fill frs t0) (labels un))) c = Some t0).
    { pose proof (sub_fill frs1 t1) as S1. rewrite Fl in S1. rewrite (frames_labels _ _ _ _ (iv_frames _ _ _ _ _ _ _ I1)) in S1.
      cbn [w_unchecked] in S1. rewrite S1. exact Et. }
    assert (Lb : labels (Trans c s t :: un) = labels un ++ [c]) by reflexivity.
    exists (tsize t0 + extra). split.
    { cbn [skipn]. rewrite X, Lb. rewrite (off_snoc (labels un) c (fill frs t0) t0); [lia|exact So|exact Et']. }
    intros R Rm St. cbn [w_unchecked w_minimized skipn] in *. rewrite Fl in Rg. rewrite Lb in St.
    assert (Lm : length m = length R) by (destruct Rm as (F & _); clear -F; induction F; cbn; auto).
    destruct Lc as [(-> & Lo & (e & Je & Ue) & Xa)|(e & -> & Ue & Nw & Xa & Xc)].
    + destruct (Rg R) as (new & A1 & A2 & A3 & A4 & A5 & A6).
      * split; [|apply Rm]. eapply registered_frame; [exact (proj1 Rm)|exact Fr].
      * exact (settled_shorter _ _ _ _ St).
      * exists new. split; [exact A1|]. split; [exact A2|]. split; [lia|]. split.
        -- assert (length m <= length (R ++ new)) by (rewrite app_length; lia).
           assert (2 * length m * tsize t0 <= 2 * length (R ++ new) * tsize t0) by (apply Nat.mul_le_mono_r; lia).
           rewrite Nat.mul_add_distr_l. lia.
        -- split; [|lia]. intros Dc. rewrite <- (A5 Dc), Xa; [lia|]. intros x r Jx Ux Q. apply Dc; [| |exact Q]; apply in_or_app; left.
           ++ exact (registered_tree _ _ _ _ _ (proj1 Rm) Jx Ux).
           ++ exact (registered_tree _ _ _ _ _ (proj1 Rm) Je Ue).
    + destruct (Rg (R ++ [t0])) as (new & A1 & A2 & A3 & A4 & A5 & A6).
      * apply registered_snoc with (h := h); assumption.
      * apply (settled_snoc _ _ c); [exact St|exact (fill_has _ _ _ _ _ Fl (frames_labels _ _ _ _ (iv_frames _ _ _ _ _ _ _ I1)))|exact Et'].
      * exists (t0 :: new). rewrite <- app_assoc in A1, A2, A4, A5. cbn [app] in A1, A2, A4, A5. split; [exact A1|]. split; [exact A2|].
        change (sizes (t0 :: new)) with (tsize t0 + sizes new). split; [lia|]. split.
        -- assert (length m <= length (R ++ t0 :: new)) by (rewrite app_length; lia).
           assert (2 * length m * tsize t0 <= 2 * length (R ++ t0 :: new) * tsize t0) by (apply Nat.mul_le_mono_r; lia).
           rewrite Nat.mul_add_distr_l. lia.
        -- split; [|cbn [pairs]; rewrite (Xc R (proj1 Rm)); unfold clashes; lia].
           intros Dc. specialize (A5 Dc). rewrite Xa; [lia|]. intros x r Jx Ux Q. apply Dc; [| |exact Q]; apply in_or_app; [left|right; now left].
           exact (registered_tree _ _ _ _ _ (proj1 Rm) Jx Ux).
Qed.

(** ** add *)
Lemma e_add_ok : forall alloc B h0 h b t w frs t0 term h' b', allocator alloc ->
  binv B h0 h b t w frs t0 -> length term < B -> ~ lex_lt term (b_prev b) -> tsorted t ->
  (forall fuel, B <= fuel -> add fuel alloc h b term = Ok (true, h', b')) ->
  exists calls extra, (forall fuel, B <= fuel -> e_add fuel alloc h b term = Ok (true, h', b', calls)) /\
    off (tadd t term) term = off t (b_prev b) + extra /\
    forall R, registered h (w_minimized w) R -> settled t (b_prev b) R ->
      exists w' new, b_work b' = Some w' /\ registered h' (w_minimized w') (R ++ new) /\ settled (tadd t term) term (R ++ new) /\
        extra <= calls + sizes new /\ calls <= 2 * length (R ++ new) * extra /\ (distinct_codes (R ++ new) -> calls + sizes new = extra) /\ 2 * pairs clash R new <= calls.
Proof.
  intros alloc B h0 h b t w frs t0 term h' b' A BI Lt NL So Ea.
  destruct (add_ok alloc B h0 h b t w frs t0 term A BI Lt NL) as (hx & bx & wx & frx & tx & Ex & BIx & _).
  pose proof (Ex B (le_n _)) as Ey. rewrite (Ea B (le_n _)) in Ey. injection Ey as <- <-. clear Ex.
  destruct BIx as [Hwx Ix _ _ _ _]. pose proof (iv_min _ _ _ _ _ _ _ Ix) as Mx. clear Ix.
  destruct BI as [Hw I Ht Hh Hp Hn]. set (root := d_root (b_dawg b)) in *.
  assert (Es : str_ltb term (b_prev b) = false).
  { destruct (str_ltb term (b_prev b)) eqn:Es; [apply str_ltb_lex in Es; tauto|auto]. }
  set (i := common_prefix term (b_prev b)).
  destruct (common_prefix_spec term (b_prev b) NL) as (L1 & L2 & Fe & D). fold i in L1, L2, Fe, D.
  assert (Lun : length (w_unchecked w) = length (b_prev b)) by (rewrite <- Hp, labels_length; auto).
  destruct term as [|c0 term0].
  { exists 0, 0. split; [|split].
    3: { intros R Rg St. specialize (Ea B (le_n _)). unfold add in Ea. rewrite Es in Ea. cbv zeta in Ea.
         destruct (set_final h (d_root (b_dawg b)) true) as [h1| |]; try discriminate. cbn [rbind] in Ea. injection Ea as <- <-.
         cbn [b_work] in Hwx. rewrite Hw in Hwx. injection Hwx as <-. exists w, []. rewrite app_nil_r. split; [exact Hw|]. split; [|split; [|cbn [sizes fold_right pairs]; split; [lia|split; [lia|split; [reflexivity|lia]]]]].
         - exact (registered_same _ _ _ _ _ _ (iv_min _ _ _ _ _ _ _ I) Mx Rg).
         - apply (settled_tadd _ _ _ _ St). intros v _ (u & E). destruct v; [eexists; reflexivity|discriminate]. }
    - intros fuel Hf. specialize (Ea fuel Hf). unfold add in Ea. unfold e_add. rewrite Es in *. cbv zeta in *.
      destruct (set_final h (d_root (b_dawg b)) true); try discriminate. cbn [rbind] in *. injection Ea as <- <-. reflexivity.
    - rewrite off_tadd. destruct D as [D|(a & b0 & u' & v' & Sk & _)]; [|destruct i; discriminate].
      assert (i = 0) as Hi0 by reflexivity. rewrite Hi0 in D. destruct (b_prev b); [cbn; lia|discriminate]. }
  set (term := c0 :: term0) in *.
  destruct (minimize_loop_ok (length (w_unchecked w) - i) B h0 h root w frs t0 I)
    as (h1 & w1 & frs1 & t1 & E1 & I1 & F1 & U1 & D1); [rewrite Ht; auto | lia |].
  destruct (e_minimize_loop_ok (length (w_unchecked w) - i) B h0 h root w frs t0 I)
    as (h2 & w2 & calls & E2 & Ec & extra & X & Rg); [rewrite Ht; auto|lia|rewrite Ht; auto|].
  pose proof (E1 B (le_n _)) as Eq. rewrite (E2 B (le_n _)) in Eq. injection Eq as -> ->.
  assert (La1 : labels (w_unchecked w1) = firstn i term).
  { rewrite U1, labels_skipn by lia. rewrite Hp, Fe. f_equal. lia. }
  assert (St : sub t (firstn i term) = t1).
  { pose proof (sub_fill frs1 t1) as S1. rewrite F1, Ht in S1. rewrite (frames_labels _ _ _ _ (iv_frames _ _ _ _ _ _ _ I1)), La1 in S1. exact S1. }
  assert (Ab : forall c rest, skipn i term = c :: rest -> edge_get (tedges t1) c = None).
  { intros c rest Er. pose proof (iv_top _ _ _ _ _ _ _ I1) as U. destruct (unf_inv _ _ _ U) as (n & _ & G & _ & Us & _).
    pose proof (unfs_get _ _ _ c Us) as Y. destruct (edge_get (nedges n) c) as [q|] eqn:Ge; [|exact Y]. exfalso.
    apply edge_get_In in Ge.
    destruct (length (w_unchecked w) - i) as [|k] eqn:Ek.
    + destruct D1 as [-> ->]. apply Hn in G. rewrite G in Ge. destruct Ge.
    + destruct D1 as (tr & n' & Nth & G' & Le).
      rewrite G in G'. injection G' as <-. specialize (Le _ _ Ge).
      destruct D as [D|(a & b0 & u' & v' & Sk & Nb & _ & Lab)]; [lia|].
      apply labels_nth in Nth. rewrite Hp in Nth.
      replace (length (w_unchecked w) - S k) with i in Nth by lia.
      rewrite Nb in Nth. injection Nth as ->. rewrite Sk in Er. injection Er as -> _. lia. }
  exists calls, extra. split; [|split].
  3: { intros R R0 S0. destruct (Rg R R0) as (new & A1 & A2 & A3); [rewrite Ht, Hp; exact S0|].
       rewrite <- U1, La1, Ht in A2. exists wx, new. split; [exact Hwx|]. split; [|split; [|exact A3]].
       - assert (Em : w_minimized wx = w_minimized w1).
         { specialize (Ea B (le_n _)). rewrite add_nonempty in Ea by (auto; discriminate). fold i in Ea. rewrite Hw in Ea. cbn [deref rbind] in Ea.
           unfold minimize in Ea. rewrite E1 in Ea by auto. cbn [rbind] in Ea.
           destruct (push_suffix alloc h1 w1 _ (skipn i term)) as [[h3 w3] last] eqn:Ep.
           destruct (set_final h3 last true); try discriminate. cbn [rbind] in Ea. injection Ea as <- <-.
           cbn [b_work] in Hwx. injection Hwx as <-. exact (push_suffix_min _ _ _ _ _ _ _ _ Ep). }
         rewrite Em in *. exact (registered_same _ _ _ _ _ _ (iv_min _ _ _ _ _ _ _ I1) Mx A1).
       - apply (settled_tadd _ _ _ _ A2). intros v Hv (u & E).
         destruct (Nat.le_gt_cases (length v) i) as [Lv|Lv].
         + exists (firstn (i - length v) u). rewrite E, firstn_app, firstn_all2 by lia. reflexivity.
         + exfalso. rewrite <- (firstn_skipn i v) in Hv. apply has_app in Hv. destruct Hv as (_ & Hv).
           assert (Fv : firstn i v = firstn i term) by (rewrite E, firstn_app; replace (i - length v) with 0 by lia; cbn; now rewrite app_nil_r).
           rewrite Fv, St in Hv. destruct (skipn i v) as [|c rest] eqn:Ev; [apply (f_equal (@length _)) in Ev; rewrite skipn_length in Ev; cbn [length] in Ev; lia|].
           cbn [has] in Hv. rewrite (Ab c (rest ++ u)) in Hv; [exact Hv|]. rewrite E, skipn_app, Ev. replace (i - length v) with 0 by lia. reflexivity. }
  - intros fuel Hf. specialize (Ea fuel Hf). rewrite add_nonempty in Ea by (auto; discriminate).
    unfold e_add. rewrite Es. cbv zeta. fold i in Ea |- *. change (match term with [] => _ | _ :: _ => ?x end) with x.
    rewrite Hw in *. cbn [deref rbind] in *. unfold minimize in Ea. unfold e_minimize. rewrite E1 in Ea by auto. rewrite Ec by auto. cbn [rbind] in *.
    change (match w_unchecked w1 with [] => d_root (b_dawg b) | t :: _ => t_target t end) with (top (d_root (b_dawg b)) (w_unchecked w1)).
    destruct (push_suffix alloc h1 w1 (top (d_root (b_dawg b)) (w_unchecked w1)) (skipn i term)) as [[h3 w3] last].
    destruct (set_final h3 last true); try discriminate. cbn [rbind] in *. injection Ea as <- <-. reflexivity.
  - rewrite off_tadd. rewrite Ht in X. rewrite <- U1, La1, Hp in X. rewrite <- X.
    rewrite <- (firstn_skipn i term) at 1. apply off_app.
    rewrite St. destruct (skipn i term) as [|c rest] eqn:Er; [reflexivity|]. apply off_absent. apply (Ab c rest). reflexivity.
Qed.

Lemma e_adds_ok : forall alloc, allocator alloc -> forall ts B h0 h b t w frs t0,
  binv B h0 h b t w frs t0 -> short B ts -> tsorted t ->
  exists flags kept h' b' w' frs' t0' calls extra,
    greedy (b_prev b) ts flags kept /\
    (forall fuel, B <= fuel -> adds fuel alloc h b ts = Ok (flags, h', b')) /\
    (forall fuel, B <= fuel -> e_adds fuel alloc h b ts = Ok (flags, h', b', calls)) /\
    binv B h0 h' b' (trie_from t kept) w' frs' t0' /\ tsorted (trie_from t kept) /\
    off (trie_from t kept) (b_prev b') = off t (b_prev b) + extra /\
    forall R, registered h (w_minimized w) R -> settled t (b_prev b) R ->
      exists new, registered h' (w_minimized w') (R ++ new) /\ settled (trie_from t kept) (b_prev b') (R ++ new) /\
        extra <= calls + sizes new /\ calls <= 2 * length (R ++ new) * extra /\ (distinct_codes (R ++ new) -> calls + sizes new = extra) /\ 2 * pairs clash R new <= calls.
Proof.
  intros alloc A. induction ts as [|x ts IH]; intros B h0 h b t w frs t0 BI Sh So.
  - exists [], [], h, b, w, frs, t0, 0, 0. split; [constructor|]. split; [auto|]. split; [auto|]. split; [auto|]. split; [auto|].
    cbn [trie_from fold_left]. split; [lia|]. intros R Rg St. exists []. rewrite app_nil_r. cbn [sizes fold_right pairs]. split; [exact Rg|]. split; [exact St|]. split; [lia|]. split; [lia|]. split; [reflexivity|lia].
  - apply short_cons in Sh. destruct Sh as [Lx Sh].
    destruct (lex_lt_dec x (b_prev b)) as [L|L].
    + destruct (IH B h0 h b t w frs t0 BI Sh So) as (flags & kept & h' & b' & w' & frs' & t0' & calls & extra & G & E & Ec & R).
      exists (false :: flags), kept, h', b', w', frs', t0', calls, extra. split; [constructor; auto|].
      split; [intros fuel Hf; cbn; rewrite add_reject by auto; cbn; rewrite E by auto; auto|].
      split; [|exact R]. intros fuel Hf. cbn [e_adds]. unfold e_add. apply str_ltb_lex in L. rewrite L. cbn [rbind]. rewrite Ec by auto. reflexivity.
    + destruct (add_ok alloc B h0 h b t w frs t0 x A BI Lx L) as (h1 & b1 & w1 & frs1 & t1 & E1 & BI1 & P1 & R1 & S1).
      destruct (e_add_ok alloc B h0 h b t w frs t0 x h1 b1 A BI Lx L So E1) as (calls1 & extra1 & Ec1 & O1 & Rg1).
      assert (So1 : tsorted (tadd t x)) by (apply tadd_sorted; exact So).
      destruct (IH B h0 h1 b1 _ w1 frs1 t1 BI1 Sh So1) as (flags & kept & h' & b' & w' & frs' & t0' & calls & extra & G & E & Ec & BI' & So' & O & Rg).
      exists (true :: flags), (x :: kept), h', b', w', frs', t0', (calls1 + calls), (extra1 + extra).
      split; [constructor; auto; rewrite <- P1; auto|].
      split; [intros fuel Hf; cbn; rewrite E1 by auto; cbn; rewrite E by auto; auto|].
      split; [intros fuel Hf; cbn [e_adds]; rewrite Ec1 by auto; cbn [rbind]; rewrite Ec by auto; reflexivity|].
      split; [exact BI'|]. split; [exact So'|]. cbn [trie_from fold_left] in *. unfold trie_from in *. rewrite O, P1, O1. split; [lia|].
      intros R R0 S0. destruct (Rg1 R R0 S0) as (wx & n1 & Hx & R1' & S1' & C1 & C2 & C3 & C4). destruct BI1 as [Hw1 _ _ _ _ _]. rewrite Hw1 in Hx. injection Hx as <-.
      rewrite P1 in Rg. destruct (Rg (R ++ n1) R1' S1') as (n2 & R2' & S2' & D1 & D2 & D3 & D4). rewrite <- app_assoc in *.
      exists (n1 ++ n2). rewrite sizes_app. split; [exact R2'|]. split; [exact S2'|]. split; [lia|]. split.
      * assert (length (R ++ n1) <= length (R ++ n1 ++ n2)) by (rewrite !app_length; lia).
        assert (2 * length (R ++ n1) * extra1 <= 2 * length (R ++ n1 ++ n2) * extra1) by (apply Nat.mul_le_mono_r; lia).
        rewrite Nat.mul_add_distr_l. lia.
      * split; [|rewrite pairs_app; lia]. intros Dc. specialize (D3 Dc). rewrite app_assoc in Dc.
        assert (Dc1 : distinct_codes (R ++ n1)) by (intros r s Jr Js; apply Dc; apply in_or_app; now left).
        specialize (C3 Dc1). lia.
Qed.

Lemma e_finished_ok : forall alloc h0 ts, allocator alloc ->
  exists flags kept h b calls, greedy [] ts flags kept /\
    runs_to (fun fuel => finished fuel alloc h0 ts) (flags, h, b) /\
    runs_to (fun fuel => e_finished fuel alloc h0 ts) (flags, h, b, calls) /\
    unf h (d_root (b_dawg b)) (trie kept) /\
    exists R, NoDup R /\ (forall r, In r R <-> exists w, w <> [] /\ has (trie kept) w /\ sub (trie kept) w = r) /\
      weight (trie kept) <= calls + sizes R /\ calls <= 2 * length R * weight (trie kept) /\
      (distinct_codes R -> calls + sizes R = weight (trie kept)) /\ 2 * pairs clash [] R <= calls.
Proof.
  intros alloc h0 ts A. assert (exists B, 1 <= B /\ short B ts) as (B & HB & HL).
  { clear. unfold short. induction ts as [|x ts (B & H1 & H)]; [exists 1; split; [lia|intros ? []]|]. exists (Nat.max B (S (length x))).
    split; [lia|]. intros y [<-|I]; [lia|]. specialize (H y I). lia. }
  destruct (new_sorted_dawg alloc h0) as [h1 b1] eqn:En.
  destruct (new_sorted_dawg_ok alloc B h0 A HB h1 b1 En) as (BI & P & Sz).
  destruct (e_adds_ok alloc A ts B h0 h1 (init b1) leaf _ _ _ BI HL tsorted_leaf)
    as (flags & kept & h2 & b2 & w2 & frs2 & t2 & calls & extra & G & E & Ec & BI2 & So & O & Rg).
  rewrite P in *. rewrite off_leaf in O. destruct BI2 as [Hw I Ht Hh Hp Hn].
  destruct (e_minimize_loop_ok (length (w_unchecked w2) - 0) B h0 h2 _ w2 frs2 t2 I)
    as (h3 & w3 & calls3 & E3 & Ec3 & extra3 & X & Rg3); [rewrite Ht; auto|lia|rewrite Ht; auto|].
  destruct (minimize_loop_ok (length (w_unchecked w2) - 0) B h0 h2 _ w2 frs2 t2 I)
    as (hx & wx & frs3 & t3 & Ex & I3 & F3 & U3 & _); [rewrite Ht; auto | lia |].
  pose proof (E3 B (le_n _)) as Ey. rewrite (Ex B (le_n _)) in Ey. injection Ey as -> ->. clear Ex.
  exists flags, kept, h3, (Builder (b_dawg b2) (b_prev b2) (Some w3)), (calls + calls3). split; [exact G|].
  split; [|split].
  - exists B. intros fuel Hf. unfold finished, under_construction. rewrite En, E by auto. cbn [rbind]. unfold finish. rewrite Hw. cbn [deref rbind].
    unfold minimize. rewrite E3 by auto. reflexivity.
  - exists B. intros fuel Hf. unfold e_finished. rewrite En, Ec by auto. cbn [rbind]. unfold e_finish. rewrite Hw. cbn [deref rbind].
    unfold e_minimize. rewrite Ec3 by auto. reflexivity.
  - rewrite Nat.sub_0_r, skipn_all, Ht, Hp in X. unfold labels in X. cbn [map rev off] in X.
    change (trie_from leaf kept) with (trie kept) in *.
    assert (Ur0 : unf h3 (d_root (b_dawg b2)) (trie kept)).
    { pose proof (iv_top _ _ _ _ _ _ _ I3) as Ur. rewrite Nat.sub_0_r, skipn_all in U3. rewrite U3 in Ur. cbn [top] in Ur.
      pose proof (frames_labels _ _ _ _ (iv_frames _ _ _ _ _ _ _ I3)) as Fx. rewrite U3 in Fx.
      assert (t3 = trie kept) as <-; [|exact Ur].
      rewrite <- Ht, <- F3. destruct frs3 as [|[[f es] c] frs3]; [reflexivity|]. unfold flabels, labels in Fx. cbn in Fx. now destruct (rev (map snd frs3)). }
    split; [exact Ur0|].
    destruct (Rg []) as (R1 & A1 & A2 & A3 & A4 & A5 & A6).
    { split; constructor. }
    { intros r []. }
    cbn [app] in A1, A2, A4, A5, A6. destruct (Rg3 R1 A1) as (new & B1 & B2 & B3 & B4 & B5 & B6); [rewrite Ht, Hp; exact A2|]. rewrite Nat.sub_0_r, skipn_all, Ht in B2.
    exists (R1 ++ new). split; [apply B1|]. split; [|rewrite sizes_app; split; [lia|split; [|split; [|rewrite pairs_app; cbn [app]; lia]]]].
    2: { assert (length R1 <= length (R1 ++ new)) by (rewrite app_length; lia).
         assert (2 * length R1 * extra <= 2 * length (R1 ++ new) * extra) by (apply Nat.mul_le_mono_r; lia).
         replace (weight (trie kept)) with (extra + extra3) by lia. rewrite Nat.mul_add_distr_l. lia. }
    2: { intros Dc. specialize (B5 Dc). assert (Dc1 : distinct_codes R1) by (intros r s Jr Js; apply Dc; apply in_or_app; now left).
         specialize (A5 Dc1). lia. }
    intros r. split.
    + intros J. destruct (B2 r J) as (w & Hw' & Sw & N). exists w. split; [intros ->; exact (N [] eq_refl)|]. auto.
    + intros (w & Nw & Hw' & <-). rewrite Nat.sub_0_r, skipn_all in U3.
      pose proof (iv_top _ _ _ _ _ _ _ I3) as Ur. rewrite U3 in Ur. cbn [top] in Ur.
      destruct (iv_edges _ _ _ _ _ _ _ I3 _ (or_introl eq_refl)) as (n & Gn & _ & Ed).
      pose proof (frames_labels _ _ _ _ (iv_frames _ _ _ _ _ _ _ I3)) as Fx. rewrite U3 in Fx.
      assert (t3 = trie kept) as ->.
      { rewrite <- Ht, <- F3. destruct frs3 as [|[[f es] c] frs3]; [reflexivity|]. unfold flabels, labels in Fx. cbn in Fx. now destruct (rev (map snd frs3)). }
      destruct w as [|c w]; [congruence|]. cbn [has sub] in *. destruct (unf_inv _ _ _ Ur) as (n' & _ & Gn' & _ & Us & _). rewrite Gn in Gn'. injection Gn' as <-.
      pose proof (unfs_get _ _ _ c Us) as Y. unfold tget. destruct (edge_get (nedges n) c) as [q|] eqn:Gq; [|rewrite Y in Hw'; destruct Hw'].
      destruct Y as (tq & Gt & Uq). rewrite Gt in *.
      assert (Z : exists p, In p (mptrs (w_minimized w3)) /\ unf h3 p (sub tq w)).
      { apply (closed_sub h3 (fun p => In p (mptrs (w_minimized w3)))) with q; auto.
        - apply (mi_closed _ _ _ (iv_min _ _ _ _ _ _ _ I3)).
        - apply edge_get_In in Gq. eapply Ed. exact Gq. }
      destruct Z as (p & Jp & Up). clear -Jp Up B1. destruct B1 as [F _]. unfold mptrs in Jp.
      induction F as [|e r m R Ue F IH]; [destruct Jp|]. destruct Jp as [<-|Jp]; [left; eapply unf_det; eauto|right; auto].
Qed.
