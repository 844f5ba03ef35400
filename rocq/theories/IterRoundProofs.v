(** * IterRoundProofs: iterating over dictionaries in which one can go round. *)
From Coq Require Import Sorting.Sorted.
From Verif Require Import Base Spec ModelDawg SpecDawg TreeProofs HeapProofs IterProofs RoundProofs.
Local Open Scope nat_scope.

(** From [p] one can get to a node from which one can get back to it. *)
Definition rounds (h : heap) (p : ptr) : Prop := exists v q c w, path h p v q /\ path h q (c :: w) q.

Lemma rounds_step : forall h p, rounds h p -> exists n c q, hget h p = Some n /\ In (c, q) (nedges n) /\ rounds h q.
Proof.
  intros h p (v & q & c & w & P1 & P2). destruct v as [|d v].
  - inversion P1; subst. inversion P2 as [|? n ? r ? ? G J P']; subst. exists n, c, r. split; [exact G|]. split; [exact J|]. exists w, q, c, w. auto.
  - inversion P1 as [|? n ? r ? ? G J P']; subst. exists n, d, r. split; [exact G|]. split; [exact J|]. exists v, q, c, w. auto.
Qed.

Section Iter.
  Variables (h : heap) (B : nat).

  Definition rep (p : prefix) (e : item) : Prop :=
    prefix_str p = fst e /\ near h (B - length (fst e)) (prefix_node p) (snd e).

  Lemma rep_children : forall p s (f : bool) es n, prefix_str p = s -> length s < B -> nears h (B - S (length s)) (nedges n) es ->
    Forall2 rep (map (fun e => ChildPrefix (snd e) p (fst e)) (nedges n)) (children s es).
  Proof.
    intros p s f es n Es L Un. subst s. unfold children. induction Un as [|[c q] [d t] l l' [Ec Ne] Un IH]; cbn [map]; constructor; [|exact IH].
    cbn [fst snd] in *. subst d. split; [reflexivity|]. cbn [fst snd prefix_node]. rewrite app_length. cbn [length]. now replace (length (prefix_str p) + 1) with (S (length (prefix_str p))) by lia.
  Qed.

  Lemma rep_step : forall p ps s f es q, Forall2 rep (p :: ps) ((s, T f es) :: q) -> length s < B ->
    exists n, read h (prefix_node p) = Ok n /\ hget h (prefix_node p) = Some n /\ nfin n = f /\ prefix_str p = s /\
      Forall2 rep (ps ++ map (fun e => ChildPrefix (snd e) p (fst e)) (nedges n)) (q ++ children s es).
  Proof.
    intros p ps s f es q F L. inversion F as [|? ? ? ? [Ps Ne] F']; subst. cbn [fst snd] in *. replace (B - length s) with (S (B - S (length s))) in Ne by lia.
    destruct (near_read _ _ _ _ Ne) as (n & Rd & G & So & Fn & U). exists n. split; [exact Rd|]. split; [exact G|]. split; [exact Fn|]. split; [exact Ps|].
    apply Forall2_app; [exact F'|]. apply (rep_children p s f es n Ps L U).
  Qed.

  (** What can happen with little fuel. *)
  Lemma loop_limited : forall fuel m ps q, Forall2 rep ps q -> ps <> [] -> Forall (fun e => length (fst e) <= m) q -> m + fuel <= B ->
    advance_loop fuel h ps = OOF \/
    exists rest p n q', advance_loop fuel h ps = Ok (rest, p, n) /\ Forall2 rep rest q' /\ Forall (fun e => length (fst e) <= m + fuel) q' /\
      ((nfin n = true /\ enum q = prefix_str p :: enum q' /\ (Exists (fun p => rounds h (prefix_node p)) ps -> Exists (fun p => rounds h (prefix_node p)) rest)) \/
       (nfin n = false /\ rest = [] /\ enum q = [] /\ ~ Exists (fun p => rounds h (prefix_node p)) ps)).
  Proof.
    induction fuel as [|fuel IH]; intros m ps q F NE Fm L; [left; reflexivity|].
    destruct ps as [|p ps]; [congruence|]. destruct q as [|[s [f es]] q]; [inversion F|]. inversion Fm as [|? ? Ls Fm']; subst. cbn [fst] in Ls.
    destruct (rep_step p ps s f es q F ltac:(lia)) as (n & Rd & G & Fn & Ps & F').
    cbn [advance_loop]. rewrite Rd. cbn [rbind]. set (rest := ps ++ map (fun e => ChildPrefix (snd e) p (fst e)) (nedges n)) in *.
    assert (Ro : Exists (fun p => rounds h (prefix_node p)) (p :: ps) -> Exists (fun p => rounds h (prefix_node p)) rest).
    { intros X. unfold rest. apply Exists_app. inversion X as [? ? Rp|? ? X']; subst; [|now left]. right. destruct (rounds_step _ _ Rp) as (n' & c & r & G' & J & Rr).
      assert (n' = n) by congruence. subst n'. apply Exists_exists. exists (ChildPrefix r p c). split; [|exact Rr]. apply in_map_iff. exists (c, r). auto. }
    assert (Fc : Forall (fun e => length (fst e) <= S m) (q ++ children s es)).
    { apply Forall_app. split; [eapply Forall_impl; [|exact Fm']; intros a; cbn; lia|]. unfold children. apply Forall_map, Forall_forall. intros [c t] _. cbn [fst]. rewrite app_length. cbn. lia. }
    rewrite enum_cons. destruct (nfin n) eqn:En; subst f.
    - right. exists rest, p, n, (q ++ children s es). split; [reflexivity|]. split; [exact F'|]. split; [eapply Forall_impl; [|exact Fc]; intros a; cbn; lia|].
      left. split; [exact En|]. split; [now rewrite Ps|exact Ro].
    - destruct rest as [|r rest'] eqn:Er.
      + right. exists [], p, n, []. inversion F' as [X|]. split; [reflexivity|]. split; [constructor|]. split; [constructor|]. right. split; [exact En|]. split; [reflexivity|]. split; [reflexivity|].
        intros X'. apply Ro in X'. inversion X'.
      + destruct (IH (S m) (r :: rest') (q ++ children s es) F' ltac:(discriminate) Fc ltac:(lia)) as [X|(rest2 & p2 & n2 & q2 & E2 & F2 & L2 & D)]; [left; exact X|].
        right. exists rest2, p2, n2, q2. split; [exact E2|]. split; [exact F2|]. split; [eapply Forall_impl; [|exact L2]; intros a; cbn; lia|].
        destruct D as [(D1 & D2 & D3)|(D1 & D2 & D3 & D4)]; [left|right]; cbn [app].
        * split; [exact D1|]. split; [exact D2|]. intros X. apply D3, Ro, X.
        * split; [exact D1|]. split; [exact D2|]. split; [exact D3|]. intros X. apply D4, Ro, X.
  Qed.

  (** With fuel enough the next word is found. *)
  Lemma loop_found : forall fuel ps q w l, Forall2 rep ps q -> qsorted q -> StronglySorted before q -> enum q = w :: l -> length w < B -> qsize q < fuel ->
    exists rest p n q', advance_loop fuel h ps = Ok (rest, p, n) /\ nfin n = true /\ prefix_str p = w /\ Forall2 rep rest q' /\ qsorted q' /\ StronglySorted before q' /\
      enum q' = l /\ qsize q' < qsize q.
  Proof.
    induction fuel as [|fuel IH]; intros ps q w l F Sq Sb Ee Lw L; [lia|].
    destruct q as [|[s [f es]] q]; [rewrite enum_nil in Ee; discriminate|]. destruct ps as [|p ps]; [inversion F|].
    assert (Ls : length s < B).
    { assert (J : In w (enum ((s, T f es) :: q))) by (rewrite Ee; now left). apply enum_In in J; auto. destruct J as (s' & t & u & J & -> & _).
      rewrite app_length in Lw. destruct J as [J|J]; [injection J as <- <-; lia|]. inversion Sb as [|? ? _ Fb]; subst. rewrite Forall_forall in Fb. destruct (Fb _ J) as [[X|[X _]] _]; cbn [fst] in X; lia. }
    destruct (rep_step p ps s f es q F Ls) as (n & Rd & G & Fn & Ps & F').
    destruct (qsorted_step _ _ _ _ Sq) as [St Sq']. pose proof (before_step _ _ _ _ St Sb) as Sb'. pose proof (qsize_step s f es q) as Q.
    cbn [advance_loop]. rewrite Rd. cbn [rbind]. set (rest := ps ++ map (fun e => ChildPrefix (snd e) p (fst e)) (nedges n)) in *.
    rewrite enum_cons in Ee. destruct (nfin n) eqn:En; subst f; cbn [app] in Ee.
    - injection Ee as -> Ee. exists rest, p, n, (q ++ children w es). split; [reflexivity|]. split; [exact En|]. split; [exact Ps|]. split; [exact F'|]. split; [exact Sq'|]. split; [exact Sb'|]. split; [exact Ee|lia].
    - destruct rest as [|r rest'] eqn:Er; [assert (X : q ++ children s es = []) by (inversion F'; reflexivity); rewrite X, enum_nil in Ee; discriminate|].
      destruct (IH (r :: rest') (q ++ children s es) w l F' Sq' Sb' Ee Lw ltac:(lia)) as (rest2 & p2 & n2 & q2 & E2 & X1 & X2 & X3 & X4 & X5 & X6 & X7).
      exists rest2, p2, n2, q2. split; [exact E2|]. repeat (split; [assumption|]). lia.
  Qed.

  Lemma advance_found : forall fuel it q w l, Forall2 rep (it_pending it) q -> qsorted q -> StronglySorted before q -> enum q = w :: l -> length w < B -> qsize q < fuel ->
    exists it' q', advance fuel h it = Ok it' /\ it_index it' = it_index it /\ it_value it' = w /\ Forall2 rep (it_pending it') q' /\ qsorted q' /\ StronglySorted before q' /\
      enum q' = l /\ qsize q' < qsize q.
  Proof.
    intros fuel it q w l F Sq Sb Ee Lw L. unfold advance. destruct (it_pending it) as [|p ps] eqn:Ep; [inversion F; subst; rewrite enum_nil in Ee; discriminate|].
    destruct (loop_found fuel (p :: ps) q w l F Sq Sb Ee Lw L) as (rest & p2 & n & q' & E & X1 & X2 & X3 & X4 & X5 & X6 & X7). rewrite E. cbn [rbind]. rewrite X1.
    eexists _, q'. split; [reflexivity|]. cbn [it_index it_value it_pending]. split; [reflexivity|]. repeat (split; [assumption|]). exact X7.
  Qed.

  Lemma iterate_found : forall n k fuel last it q l, Forall2 rep (it_pending it) q -> qsorted q -> StronglySorted before q ->
    n <= length l -> (exists l', enum q = l ++ l') -> Forall (fun w => length w < B) l -> qsize q < fuel -> n < k -> (last < W)%N -> (it_index it + N.of_nat n = last)%N ->
    iterate_loop k fuel h last it = Ok (firstn n (it_value it :: l)).
  Proof.
    induction n as [|n IH]; intros [|k] fuel last it q l F Sq Sb Ll (l' & Ee) Fl L Lk Lw Ei; cbn [iterate_loop]; try lia.
    - replace (it_index it =? last)%N with true by (symmetry; apply N.eqb_eq; lia). reflexivity.
    - replace (it_index it =? last)%N with false by (symmetry; apply N.eqb_neq; lia). destruct l as [|w l]; [cbn in Ll; lia|]. inversion Fl as [|? ? L1 L2]; subst.
      unfold iter_next. destruct (advance_found fuel it q w (l ++ l') F Sq Sb Ee L1 L) as (it' & q' & E & Ii & V & F' & Sq' & Sb' & Ee' & Q').
      rewrite E. cbn [rbind]. rewrite (IH k fuel _ _ q' l); auto; cbn [it_pending it_index it_value length] in *; try lia.
      + rewrite V. reflexivity.
      + eauto.
      + unfold wadd. rewrite Ii, N.mod_small; lia.
  Qed.

  (** With little fuel. *)
  Lemma advance_limited : forall fuel m it q, Forall2 rep (it_pending it) q -> Forall (fun e => length (fst e) <= m) q -> m + fuel <= B ->
    Exists (fun p => rounds h (prefix_node p)) (it_pending it) ->
    advance fuel h it = OOF \/
    exists it' q', advance fuel h it = Ok it' /\ Forall2 rep (it_pending it') q' /\ Forall (fun e => length (fst e) <= m + fuel) q' /\
      Exists (fun p => rounds h (prefix_node p)) (it_pending it') /\ exists w, enum q = w :: enum q'.
  Proof.
    intros fuel m it q F Fm L Ro. unfold advance. destruct (it_pending it) as [|p ps] eqn:Ep; [inversion Ro|].
    destruct (loop_limited fuel m (p :: ps) q F ltac:(discriminate) Fm L) as [X|(rest & p2 & n & q' & E & F' & L' & D)]; [left; rewrite X; reflexivity|].
    right. rewrite E. cbn [rbind]. destruct D as [(En & Ee & Rr)|(_ & _ & _ & Nr)]; [|destruct (Nr Ro)]. rewrite En. eexists _, q'. split; [reflexivity|].
    cbn [it_pending]. split; [exact F'|]. split; [exact L'|]. split; [exact (Rr Ro)|]. eauto.
  Qed.

  Lemma iterate_limited : forall k m fuel last it q n, Forall2 rep (it_pending it) q -> Forall (fun e => length (fst e) <= m) q -> m + k * fuel <= B ->
    Exists (fun p => rounds h (prefix_node p)) (it_pending it) -> (last < W)%N -> (it_index it + N.of_nat n = last)%N ->
    iterate_loop k fuel h last it = OOF \/ n <= length (enum q).
  Proof.
    induction k as [|k IH]; intros m fuel last it q n F Fm L Ro Lw Ei; cbn [iterate_loop]; [now left|]. destruct n as [|n]; [right; lia|].
    replace (it_index it =? last)%N with false by (symmetry; apply N.eqb_neq; lia). unfold iter_next. cbn [Nat.mul] in L.
    assert (Ii : forall it', advance fuel h it = Ok it' -> it_index it' = it_index it).
    { intros it' E. unfold advance in E. destruct (it_pending it); [injection E as <-; reflexivity|]. destruct (advance_loop _ _ _) as [[[r p'] nd]| |]; cbn [rbind] in E; [|discriminate|discriminate].
      injection E as <-; reflexivity. }
    destruct (advance_limited fuel m it q F Fm ltac:(lia) Ro) as [X|(it' & q' & E & F' & L' & R' & w & Ee)]; [left; rewrite X; reflexivity|].
    rewrite E. cbn [rbind]. destruct (IH (m + fuel) fuel last (Iter (it_pending it') (it_value it') (wadd (it_index it') 1)) q' n) as [X|X]; auto; cbn [it_index it_pending]; try lia.
    - rewrite (Ii _ E). unfold wadd. rewrite N.mod_small; lia.
    - left. rewrite X. reflexivity.
    - right. rewrite Ee. cbn [length]. lia.
  Qed.
End Iter.

(** ** The theorems, in terms of memory *)
Lemma cut_sound : forall h w k p, solid h p -> tin (cut h k p) w = true -> accepts_from h p w.
Proof.
  intros h w k p S E. destruct (Nat.le_gt_cases (length w) k) as [L|L]; [now apply (cut_tin h w k p S L)|]. exfalso. clear S. revert k p L E.
  induction w as [|c w IH]; intros k p L E; cbn [length] in L; [lia|]. destruct k as [|k]; cbn [cut] in E; destruct (hget h p) as [n|]; cbn [tin tedges edge_get] in E; try discriminate.
  rewrite cut_get in E. destruct (edge_get (nedges n) c) as [q|]; [|discriminate]. apply (IH k q); [lia|exact E].
Qed.

Lemma sorted_prefix : forall (R : str -> str -> Prop), (forall v, ~ R v v) -> (forall a b c, R a b -> R b c -> R a c) ->
  forall l1 l2, StronglySorted R l1 -> StronglySorted R l2 -> (forall w, In w l1 -> In w l2) -> (forall v w, In w l1 -> In v l2 -> R v w -> In v l1) ->
  exists l', l2 = l1 ++ l'.
Proof.
  intros R Irr Tr. induction l1 as [|a l1 IH]; intros l2 S1 S2 I D; [exists l2; reflexivity|].
  inversion S1 as [|? ? S1' F1]; subst. destruct l2 as [|b l2]; [destruct (I a); now left|]. inversion S2 as [|? ? S2' F2]; subst. rewrite Forall_forall in F1, F2.
  assert (b = a).
  { destruct (I a (or_introl eq_refl)) as [X|X]; [exact X|]. pose proof (F2 _ X) as Y. destruct (D b a (or_introl eq_refl) (or_introl eq_refl) Y) as [Z|Z]; [now symmetry|].
    destruct (Irr a). eapply Tr; [exact (F1 _ Z)|exact Y]. }
  subst b. destruct (IH l2 S1' S2') as (l' & ->).
  - intros w J. destruct (I w (or_intror J)) as [X|X]; [|exact X]. subst w. destruct (Irr a). exact (F1 _ J).
  - intros v w J K X. destruct (D v w (or_intror J) (or_intror K) X) as [Y|Y]; [|exact Y]. subst v. destruct (Irr a). exact (F2 _ K).
  - exists l'. reflexivity.
Qed.

Lemma longest : forall (l : list str), exists B, Forall (fun w => length w < B) l.
Proof.
  induction l as [|w l (B & F)]; [exists 0; constructor|]. exists (S (length w) + B). constructor; [lia|]. eapply Forall_impl; [|exact F]. intros a; cbn; lia.
Qed.

Lemma round_iterate : forall h p size terms, solid h p -> StronglySorted shortlex_lt terms -> (forall w, In w terms -> accepts_from h p w) ->
  (forall v w, In w terms -> accepts_from h p v -> shortlex_lt v w -> In v terms) -> N.to_nat size < length terms -> (size < 2 ^ 64)%N ->
  runs_to (fun fuel => iterate fuel h (Dawg p size)) (firstn (N.to_nat size) terms).
Proof.
  intros h p size terms So Ss Ia Dn Ls Lw. destruct (longest terms) as (B & FB). set (t := cut h B p).
  pose proof (cut_near h B p So) as Ne. pose proof (cut_sorted h B p So) as Ts. fold t in Ne, Ts.
  destruct (sorted_prefix shortlex_lt shortlex_irrefl shortlex_trans terms (words t) Ss (words_sorted t Ts)) as (l' & El).
  { intros w J. apply words_In; [exact Ts|]. apply cut_tin; [exact So| |now apply Ia]. rewrite Forall_forall in FB. specialize (FB w J). lia. }
  { intros v w J K X. apply (Dn v w J); [|exact X]. apply words_In in K; [|exact Ts]. now apply (cut_sound h v B p). }
  destruct terms as [|w l]; [cbn in Ls; lia|]. inversion FB as [|? ? L1 L2]; subst.
  exists (tsize t + N.to_nat size + 2). intros fuel Hf. unfold iterate, dawg_begin. cbn [d_root d_size].
  assert (Qs : qsize [([], t)] = tsize t) by (unfold qsize, sizes; cbn [map fold_right snd]; lia).
  destruct (advance_found h B fuel (Iter [RootPrefix p] [] 0%N) [([], t)] w (l ++ l')) as (it' & q' & E & Ii & V & F' & Sq' & Sb' & Ee' & Q').
  - cbn [it_pending]. constructor; [|constructor]. split; [reflexivity|]. cbn [fst snd length prefix_node]. rewrite Nat.sub_0_r. exact Ne.
  - repeat constructor; exact Ts.
  - repeat constructor.
  - exact El.
  - exact L1.
  - lia.
  - rewrite E. cbn [rbind]. cbn [length] in Ls. rewrite (iterate_found h B (N.to_nat size) fuel fuel size it' q' l); auto; try lia.
    + rewrite V. reflexivity.
    + eauto.
    + rewrite Ii. cbn [it_index]. lia.
Qed.

Lemma round_forever : forall h p size fuel, solid h p -> rounds h p ->
  (forall terms, NoDup terms -> (forall w, In w terms -> accepts_from h p w) -> length terms <= N.to_nat size) -> (size < 2 ^ 64)%N ->
  iterate fuel h (Dawg p size) = OOF.
Proof.
  intros h p size fuel So Ro Few Lw. set (B := fuel + fuel * fuel). set (t := cut h B p).
  pose proof (cut_near h B p So) as Ne. pose proof (cut_sorted h B p So) as Ts. fold t in Ne, Ts. unfold iterate, dawg_begin. cbn [d_root d_size].
  destruct (advance_limited h B fuel 0 (Iter [RootPrefix p] [] 0%N) [([], t)]) as [X|(it' & q' & E & F' & L' & R' & w & Ee)].
  - cbn [it_pending]. constructor; [|constructor]. split; [reflexivity|]. cbn [fst snd length prefix_node]. rewrite Nat.sub_0_r. exact Ne.
  - constructor; [cbn; lia|constructor].
  - unfold B. lia.
  - cbn [it_pending]. constructor. exact Ro.
  - rewrite X. reflexivity.
  - assert (Ii : it_index it' = 0%N).
    { unfold advance in E. cbn [it_pending it_value it_index] in E. destruct (advance_loop _ _ _) as [[[r p'] nd]| |]; cbn [rbind] in E; [|discriminate|discriminate]. injection E as <-. reflexivity. }
    rewrite E. cbn [rbind]. destruct (iterate_limited h B fuel fuel fuel size it' q' (N.to_nat size) F' L' ltac:(unfold B; lia) R' Lw ltac:(rewrite Ii; lia)) as [X|X]; [exact X|].
    exfalso. assert (Y : length (words t) <= N.to_nat size).
    { apply Few; [eapply StronglySorted_NoDup; [apply shortlex_irrefl|now apply words_sorted]|]. intros v J. apply words_In in J; [|exact Ts]. now apply (cut_sound h v B p). }
    unfold words in Y. rewrite Ee in Y. cbn [length] in Y. lia.
Qed.
