(** * HandDawgProofs: dictionaries made of nodes that a caller made by hand. *)
From Coq Require Import Sorting.Sorted.
From Verif Require Import Base Spec ModelHash ModelDawg ModelHand SpecDawg SpecHand TreeProofs HeapProofs DawgProofs BuildProofs2 HandProofs.
Local Open Scope nat_scope.

Lemma destination_app : forall hist v w x, destination hist x (v ++ w) = match destination hist x v with Some y => destination hist y w | None => None end.
Proof. intros hist. induction v as [|c v IH]; intros w x; [reflexivity|]. cbn [app destination]. destruct (target hist x c); [apply IH|reflexivity]. Qed.

Lemma destination_still : forall hist, orderly hist -> forall w x y, exists_still hist x -> destination hist x w = Some y -> exists_still hist y.
Proof.
  intros hist O. induction w as [|c w IH]; intros x y E D; cbn [destination] in D; [now injection D as <-|].
  destruct (target hist x c) as [z|] eqn:Et; [|discriminate]. apply IH with z; [|exact D]. eapply target_kept; eauto.
Qed.

(** ** No walk is long if none goes round *)
Fixpoint visited (hist : list node_call) (x : nat) (w : str) : list nat :=
  x :: match w with
       | [] => []
       | c :: w' => match target hist x c with Some y => visited hist y w' | None => [] end
       end.

Lemma visited_length : forall hist w x y, destination hist x w = Some y -> length (visited hist x w) = S (length w).
Proof.
  intros hist. induction w as [|c w IH]; intros x y D; [reflexivity|]. cbn [destination visited length] in *.
  destruct (target hist x c) as [z|]; [|discriminate]. now rewrite (IH z y D).
Qed.

Lemma visited_at : forall hist w x y z, destination hist x w = Some y -> In z (visited hist x w) -> exists v u, w = v ++ u /\ destination hist x v = Some z.
Proof.
  intros hist. induction w as [|c w IH]; intros x y z D J; cbn [visited destination] in *.
  - destruct J as [<-|[]]. exists [], []. auto.
  - destruct J as [<-|J]; [exists [], (c :: w); auto|]. destruct (target hist x c) as [t|] eqn:Et; [|destruct J].
    destruct (IH t y z D J) as (v & u & -> & Dv). exists (c :: v), u. split; [reflexivity|]. cbn [destination]. now rewrite Et.
Qed.

Lemma visited_NoDup : forall hist w x y, destination hist x w = Some y -> ~ goes_round hist x -> NoDup (visited hist x w).
Proof.
  intros hist. induction w as [|c w IH]; intros x y D N; cbn [visited destination] in *; [constructor; [intros []|constructor]|].
  destruct (target hist x c) as [t|] eqn:Et; [|discriminate]. constructor.
  - intros J. destruct (visited_at hist w t y x D J) as (v & u & -> & Dv). apply N. exists [], x, c, v. split; [reflexivity|]. cbn [destination]. now rewrite Et.
  - apply IH with y; [exact D|]. intros (v & z & d & u & Dv & Du). apply N. exists (c :: v), z, d, u. split; [|exact Du]. cbn [destination]. now rewrite Et.
Qed.

Lemma walks_short : forall hist, orderly hist -> forall x w y, exists_still hist x -> ~ goes_round hist x -> destination hist x w = Some y -> length w < length (made hist).
Proof.
  intros hist O x w y E N D. pose proof (visited_NoDup hist w x y D N) as ND. pose proof (visited_length hist w x y D) as L.
  assert (S (length w) <= length (made hist)); [|lia]. rewrite <- L, <- (seq_length (length (made hist)) 0). apply NoDup_incl_length; [exact ND|].
  intros z J. destruct (visited_at hist w x y z D J) as (v & u & _ & Dv). apply in_seq. pose proof (destination_still hist O v x z E Dv) as (Lz & _). lia.
Qed.

(** ** The tree below a node *)
Fixpoint present (t : tree) (w : str) : bool :=
  match w with
  | [] => true
  | c :: w' => match edge_get (tedges t) c with Some t' => present t' w' | None => false end
  end.

Section Unfold.
  Variables (h0 : heap) (hist : list node_call) (h : heap) (ps : list ptr).
  Hypothesis O : orderly hist.
  Hypothesis St : stands h0 hist h ps.

  Lemma hand_unf : forall k x p, exists_still hist x -> nth_error ps x = Some p -> (forall w y, destination hist x w = Some y -> length w < k) ->
    exists t, unf h p t /\ height t <= k /\
      (forall w, present t w = true <-> destination hist x w <> None) /\ (forall w, tin t w = true <-> term_of hist x w).
  Proof.
    induction k as [|k IH]; intros x p E Ep Le; [specialize (Le [] x eq_refl); cbn in Le; lia|].
    destruct (st_node _ _ _ _ St x E) as (p' & n & E1 & E2 & _ & E4 & E5 & E6 & E7). rewrite Ep in E1. injection E1 as <-.
    assert (X : forall l, (forall c q, In (c, q) l -> In (c, q) (nedges n)) -> exists ts, unfs h l ts /\
      fold_right (fun e m => Nat.max (height (snd e)) m) 0 ts <= k /\
      (forall c, match edge_get l c, edge_get ts c with
         | Some _, Some t => exists y, target hist x c = Some y /\
             (forall w, present t w = true <-> destination hist y w <> None) /\ (forall w, tin t w = true <-> term_of hist y w)
         | None, None => True
         | _, _ => False
         end)).
    { induction l as [|[c q] l IHl]; intros Sub.
      - exists []. split; [constructor|]. split; [cbn; lia|]. intros c. exact Logic.I.
      - destruct IHl as (ts & Ut & Ht & Et); [intros; apply Sub; right; auto|].
        assert (Iq : In (c, q) (nedges n)) by (apply Sub; left; auto). apply edge_In_get in Iq; auto.
        pose proof (E7 c) as Q. destruct (target hist x c) as [y|] eqn:T'; [|congruence]. destruct Q as (q' & Q1 & Q2). rewrite Iq in Q2. injection Q2 as <-.
        destruct (IH y q) as (t & U & Hh & Pr & Ti); [eapply target_kept; eauto|exact Q1| |].
        { intros w z D. assert (S (length w) < S k); [|lia]. apply (Le (c :: w) z). cbn [destination]. now rewrite T'. }
        exists ((c, t) :: ts). split; [constructor; auto|]. split; [cbn [fold_right snd]; lia|].
        intros c'. cbn [edge_get]. destruct (ceqb_spec c' c) as [[-> E']|[Ne E']]; rewrite E'; [|apply Et]. exists y. auto. }
    destruct (X (nedges n)) as (ts & Ut & Ht & Et); auto.
    exists (T (nfin n) ts). split; [econstructor; eauto|]. split; [cbn [height]; lia|]. split.
    - intros [|c w]; cbn [present destination tedges]; [split; [discriminate|reflexivity]|]. specialize (Et c). pose proof (E7 c) as Q.
      destruct (edge_get (nedges n) c) as [q|] eqn:G, (edge_get ts c) as [t|]; try (now destruct Et).
      + destruct Et as (y & -> & Pr & _). apply Pr.
      + destruct (target hist x c) as [y|]; [destruct Q as (? & _ & Q); discriminate|]. split; [discriminate|congruence].
    - intros [|c w]; cbn [tin tfin tedges]; unfold term_of in *; cbn [destination].
      + split; [intros F; exists x; rewrite E5, F; auto|]. intros (y & D & F). injection D as <-. rewrite E5 in F. now injection F.
      + specialize (Et c). pose proof (E7 c) as Q. destruct (edge_get (nedges n) c) as [q|] eqn:G, (edge_get ts c) as [t|]; try (now destruct Et).
        * destruct Et as (y & -> & _ & Ti). apply Ti.
        * destruct (target hist x c) as [y|]; [destruct Q as (? & _ & Q); discriminate|]. split; [discriminate|intros (y & D & _); discriminate].
  Qed.

  Lemma hand_path : forall w x p q, exists_still hist x -> nth_error ps x = Some p -> (path h p w q <-> exists y, destination hist x w = Some y /\ nth_error ps y = Some q).
  Proof.
    induction w as [|c w IH]; intros x p q E Ep.
    - split; [intros P; inversion P; subst; exists x; auto|]. intros (y & D & Q). injection D as <-. rewrite Ep in Q. injection Q as <-. constructor.
    - destruct (st_node _ _ _ _ St x E) as (p' & n & E1 & E2 & _ & E4 & E5 & E6 & E7). rewrite Ep in E1. injection E1 as <-. specialize (E7 c). cbn [destination]. split.
      + intros P. inversion P as [|? n' ? r ? ? G J P']; subst. assert (n' = n) by congruence. subst n'. apply edge_In_get in J; auto.
        destruct (target hist x c) as [y|] eqn:T'; [|congruence]. destruct E7 as (r' & R1 & R2). assert (r' = r) by congruence. subst r'.
        apply (IH y r q); auto. eapply target_kept; eauto.
      + destruct (target hist x c) as [y|] eqn:T'; [|intros (? & ? & _); discriminate]. intros D. destruct E7 as (r & R1 & R2).
        econstructor; [exact E4|apply edge_get_In; exact R2|]. apply (IH y r q); auto. eapply target_kept; eauto.
  Qed.

  Lemma hand_reach : forall x p q, exists_still hist x -> nth_error ps x = Some p -> (reach h p q <-> exists w y, destination hist x w = Some y /\ nth_error ps y = Some q).
  Proof. intros x p q E Ep. unfold reach. split; intros (w & P); exists w; [apply (hand_path w x p q)|apply (hand_path w x p q)]; auto. Qed.

  (** Walking without end. *)
  Lemma round_step : forall x, goes_round hist x -> exists c y, target hist x c = Some y /\ goes_round hist y.
  Proof.
    intros x (v & y & c & w & Dv & Dw). destruct v as [|d v].
    - injection Dv as <-. cbn [destination] in Dw. destruct (target hist x c) as [z|] eqn:Et; [|discriminate]. exists c, z. split; [exact Et|].
      exists w, x, c, w. split; [exact Dw|]. cbn [destination]. now rewrite Et.
    - cbn [destination] in Dv. destruct (target hist x d) as [z|] eqn:Et; [|discriminate]. exists d, z. split; [exact Et|]. exists v, y, c, w. auto.
  Qed.

  Lemma round_loop : forall fuel pending nodes,
    (forall p, In p pending -> exists x, exists_still hist x /\ nth_error ps x = Some p) ->
    (exists p x, In p pending /\ exists_still hist x /\ nth_error ps x = Some p /\ goes_round hist x) ->
    all_nodes_loop fuel h pending nodes = OOF.
  Proof.
    induction fuel as [|fuel IH]; intros pending nodes All (p & x & J & Ex & Ep & Ro); [reflexivity|]. cbn [all_nodes_loop].
    destruct pending as [|q pending]; [destruct J|]. destruct (All q (or_introl eq_refl)) as (z & Ez & Eq').
    destruct (st_node _ _ _ _ St z Ez) as (q' & n & E1 & E2 & _ & E4 & E5 & E6 & E7). rewrite Eq' in E1. injection E1 as <-.
    rewrite (read_ok _ _ _ E2 E4). cbn [rbind]. apply IH.
    - intros r Jr. apply in_app_iff in Jr. destruct Jr as [Jr|Jr]; [apply All; now right|]. apply in_map_iff in Jr. destruct Jr as ([c r'] & <- & Jr). cbn [snd].
      apply edge_In_get in Jr; auto. specialize (E7 c). destruct (target hist z c) as [y|] eqn:T'; [|congruence]. destruct E7 as (r & R1 & R2).
      exists y. split; [eapply target_kept; eauto|congruence].
    - destruct J as [<-|J].
      + assert (x = z) by (eapply (st_inj _ _ _ _ St); eauto). subst z. destruct (round_step x Ro) as (c & y & T' & Ry). specialize (E7 c). rewrite T' in E7.
        destruct E7 as (r & R1 & R2). exists r, y. split; [|split; [eapply target_kept; eauto|auto]]. apply in_or_app. right. apply in_map_iff. exists (c, r). split; [reflexivity|].
        now apply edge_get_In.
      + exists p, x. split; [apply in_or_app; now left|auto].
  Qed.
End Unfold.

(** ** Trees that are equal *)
Lemma present_ext : forall k t1 t2, height t1 <= k -> tsorted t1 -> tsorted t2 ->
  (forall w, present t1 w = present t2 w) -> (forall w, tin t1 w = tin t2 w) -> t1 = t2.
Proof.
  induction k as [|k IH]; intros [f1 es1] [f2 es2] L S1 S2 P Q; [cbn in L; lia|].
  inversion S1 as [? ? So1 F1]; inversion S2 as [? ? So2 F2]; subst. f_equal; [exact (Q [])|]. apply edges_ext; auto. intros c.
  pose proof (P [c]) as Pc. cbn [present tedges] in Pc. destruct (edge_get es1 c) as [t1|] eqn:G1, (edge_get es2 c) as [t2|] eqn:G2; try discriminate; [|reflexivity].
  f_equal. pose proof (edge_get_In _ _ _ _ G1) as J1. pose proof (edge_get_In _ _ _ _ G2) as J2. rewrite Forall_forall in F1, F2. apply IH.
  - cbn [height] in L. assert (H : height t1 <= fold_right (fun e m => Nat.max (height (snd e)) m) 0 es1); [|lia]. clear -J1.
    induction es1 as [|[d t] es IH]; [destruct J1|]. cbn [fold_right snd]. destruct J1 as [E|J1]; [injection E as -> ->; lia|specialize (IH J1); lia].
  - exact (F1 _ J1).
  - exact (F2 _ J2).
  - intros w. specialize (P (c :: w)). cbn [present tedges] in P. now rewrite G1, G2 in P.
  - intros w. specialize (Q (c :: w)). cbn [tin tedges] in Q. now rewrite G1, G2 in Q.
Qed.

(** ** Comparing and hashing a dictionary that goes round *)
Section Round.
  Variables (h0 : heap) (hist : list node_call) (h : heap) (ps : list ptr).
  Hypothesis O : orderly hist.
  Hypothesis St : stands h0 hist h ps.

  Lemma round_eq : forall fuel x p n, exists_still hist x -> nth_error ps x = Some p -> hget h p = Some n ->
    (node_eq fuel h n n = OOF \/ node_eq fuel h n n = Ok true) /\ (goes_round hist x -> node_eq fuel h n n = OOF).
  Proof.
    induction fuel as [|fuel IH]; intros x p n E Ep G; [split; [left|]; reflexivity|].
    destruct (st_node _ _ _ _ St x E) as (p' & n' & E1 & E2 & _ & E4 & E5 & E6 & E7). rewrite Ep in E1. injection E1 as <-. assert (n' = n) by congruence. subst n'.
    rewrite node_eq_S, Bool.eqb_reflx, Nat.eqb_refl. cbn [negb].
    assert (Ch : forall c q, In (c, q) (nedges n) -> exists y m, target hist x c = Some y /\ exists_still hist y /\ nth_error ps y = Some q /\ q <> null /\ hget h q = Some m /\ transition n c = q).
    { intros c q J. apply edge_In_get in J; auto. specialize (E7 c). destruct (target hist x c) as [y|] eqn:T'; [|congruence]. destruct E7 as (r & R1 & R2). assert (r = q) by congruence. subst r.
      assert (Ey : exists_still hist y) by (eapply target_kept; eauto). destruct (st_node _ _ _ _ St y Ey) as (q' & m & F1 & F2 & _ & F4 & _). assert (q' = q) by congruence. subst q'.
      exists y, m. unfold transition. rewrite J. repeat (split; auto). }
    assert (Each : forall es, (forall c q, In (c, q) es -> In (c, q) (nedges n)) ->
      (eq_each fuel h n es = OOF \/ eq_each fuel h n es = Ok true) /\
      ((exists c q y, In (c, q) es /\ target hist x c = Some y /\ goes_round hist y) -> eq_each fuel h n es = OOF)).
    { induction es as [|[c q] es IHe]; intros Sub; [split; [right; reflexivity|intros (? & ? & ? & [] & _)]|].
      destruct (Ch c q (Sub _ _ (or_introl eq_refl))) as (y & m & T' & Ey & Ey' & Nq & Gq & Tr). cbn [eq_each]. rewrite Tr. destruct (N.eqb_spec q null); [contradiction|].
      rewrite (read_ok _ _ _ Nq Gq). cbn [rbind]. destruct (IH y q m Ey Ey' Gq) as (I1 & I2). destruct IHe as (J1 & J2); [intros; apply Sub; now right|].
      destruct I1 as [I1|I1]; rewrite I1; cbn [rbind]; [split; auto|]. split; [exact J1|]. intros (c' & q' & y' & [Eq|J] & T2 & Ro).
      - injection Eq as <- <-. assert (y' = y) by congruence. subst y'. rewrite (I2 Ro) in I1. discriminate.
      - apply J2. exists c', q', y'. auto. }
    destruct (Each (nedges n)) as (A1 & A2); auto. split; [exact A1|]. intros Ro. apply A2. destruct (round_step hist x Ro) as (c & y & T' & Ry).
    specialize (E7 c). rewrite T' in E7. destruct E7 as (r & R1 & R2). exists c, r, y. split; [now apply edge_get_In|auto].
  Qed.

  Lemma node_hash_S : forall fuel n, node_hash (S fuel) h n =
    do code <- (fix each (es : list (char * ptr)) (code : N) : res N :=
           match es with
           | [] => Ok code
           | (c, target) :: es' =>
               let code := murmur_key (uchar c) code in
               do t <- read h target;
               do k <- node_hash fuel h t;
               each es' (murmur_key k code)
           end) (nedges n) DEADBEEF;
    Ok (murmur_key (if nfin n then 1%N else 0%N) code).
  Proof. reflexivity. Qed.

  Lemma round_hash : forall fuel x p n, exists_still hist x -> nth_error ps x = Some p -> hget h p = Some n ->
    node_hash fuel h n <> UB /\ (goes_round hist x -> node_hash fuel h n = OOF).
  Proof.
    induction fuel as [|fuel IH]; intros x p n E Ep G; [split; [discriminate|reflexivity]|].
    destruct (st_node _ _ _ _ St x E) as (p' & n' & E1 & E2 & _ & E4 & E5 & E6 & E7). rewrite Ep in E1. injection E1 as <-. assert (n' = n) by congruence. subst n'.
    assert (Ch : forall c q, In (c, q) (nedges n) -> exists y m, target hist x c = Some y /\ exists_still hist y /\ nth_error ps y = Some q /\ q <> null /\ hget h q = Some m).
    { intros c q J. apply edge_In_get in J; auto. specialize (E7 c). destruct (target hist x c) as [y|] eqn:T'; [|congruence]. destruct E7 as (r & R1 & R2). assert (r = q) by congruence. subst r.
      assert (Ey : exists_still hist y) by (eapply target_kept; eauto). destruct (st_node _ _ _ _ St y Ey) as (q' & m & F1 & F2 & _ & F4 & _). assert (q' = q) by congruence. subst q'.
      exists y, m. repeat (split; auto). }
    rewrite node_hash_S. match goal with |- context [do code <- ?f (nedges n) DEADBEEF; _] => set (each := f) end.
    assert (Each : forall es code, (forall c q, In (c, q) es -> In (c, q) (nedges n)) ->
      each es code <> UB /\ ((exists c q y, In (c, q) es /\ target hist x c = Some y /\ goes_round hist y) -> each es code = OOF)).
    { induction es as [|[c q] es IHe]; intros code Sub; [split; [discriminate|intros (? & ? & ? & [] & _)]|].
      destruct (Ch c q (Sub _ _ (or_introl eq_refl))) as (y & m & T' & Ey & Ey' & Nq & Gq). cbn [each]. fold each.
      rewrite (read_ok _ _ _ Nq Gq). cbn [rbind]. destruct (IH y q m Ey Ey' Gq) as (I1 & I2).
      destruct (node_hash fuel h m) as [k| |] eqn:Hk; cbn [rbind]; [|congruence|split; [discriminate|reflexivity]].
      destruct (IHe (murmur_key k (murmur_key (uchar c) code))) as (J1 & J2); [intros; apply Sub; now right|]. split; [exact J1|]. intros (c' & q' & y' & [Eq|J] & T2 & Ro).
      - injection Eq as <- <-. assert (y' = y) by congruence. subst y'. specialize (I2 Ro). discriminate.
      - apply J2. exists c', q', y'. auto. }
    destruct (Each (nedges n) DEADBEEF) as (A1 & A2); auto. split; [destruct (each (nedges n) DEADBEEF); [discriminate|congruence|discriminate]|].
    intros Ro. rewrite A2; [reflexivity|]. destruct (round_step hist x Ro) as (c & y & T' & Ry).
    specialize (E7 c). rewrite T' in E7. destruct E7 as (r & R1 & R2). exists c, r, y. split; [now apply edge_get_In|auto].
  Qed.
End Round.
