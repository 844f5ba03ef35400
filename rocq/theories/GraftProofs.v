(** * GraftProofs: changing a node of a dictionary that exists. *)
From Coq Require Import Sorting.Sorted.
From Verif Require Import Base Spec ModelDawg SpecDawg TreeProofs HeapProofs SerialProofs RoundProofs.
Local Open Scope nat_scope.

(** ** Paths and trees *)
Lemma unf_path_short : forall h w p q t, unf h p t -> path h p w q -> length w < height t.
Proof.
  intros h. induction w as [|c w IH]; intros p q t U P; [apply height_pos|]. inversion P as [|? n ? r ? ? G I P']; subst.
  destruct (unf_inv _ _ _ U) as (n' & _ & G' & So & Us & F). rewrite G in G'. injection G' as <-.
  apply (edge_In_get _ _ _ _ So) in I. pose proof (unfs_get _ _ _ c Us) as X. unfold ptr in *. rewrite I in X. destruct X as (t' & Gt & Ut). specialize (IH r q t' Ut P').
  destruct t as [f ts]. cbn [tedges] in Gt. apply edge_get_In in Gt. pose proof (height_edge_lt f _ _ _ Gt). cbn [length]. lia.
Qed.

Lemma unf_solid : forall h p t, unf h p t -> solid h p.
Proof. intros h p t U w q P. destruct (unf_reach h p q (ex_intro _ w P) _ U) as (t' & Uq & _). apply unf_inv in Uq. destruct Uq as (n & Nq & G & So & _). eauto. Qed.

Lemma short_unf : forall h k p, solid h p -> (forall w q, path h p w q -> length w <= k) -> exists t, unf h p t.
Proof.
  intros h. induction k as [|k IH]; intros p S B; destruct (S [] p (path_nil h p)) as (Np & n & G & So).
  - destruct (nedges n) as [|[c q] es] eqn:E.
    + exists (T (nfin n) []). constructor; auto; rewrite E; constructor.
    + exfalso. specialize (B [c] q). cbn [length] in B. assert (X : path h p [c] q) by (econstructor; [exact G|rewrite E; now left|constructor]). specialize (B X). lia.
  - assert (Us : forall es, (forall c q, In (c, q) es -> In (c, q) (nedges n)) -> exists ts, unfs h es ts).
    { induction es as [|[c q] es IHe]; intros Sub; [exists []; constructor|]. destruct IHe as (ts & Us); [intros; apply Sub; now right|].
      assert (I : In (c, q) (nedges n)) by (apply Sub; now left).
      destruct (IH q (solid_step h p n c q S G I)) as (t & U); [|exists ((c, t) :: ts); constructor; auto].
      intros w r P. specialize (B (c :: w) r). cbn [length] in B. assert (X : path h p (c :: w) r) by (econstructor; eauto). specialize (B X). lia. }
    destruct (Us (nedges n)) as (ts & U); [auto|]. exists (T (nfin n) ts). constructor; auto.
Qed.

(** ** A node is linked to a new one *)
Section Link.
  Variables (h : heap) (root q r : ptr) (n : node) (b : bool) (c : char).
  Hypothesis So : solid h root.
  Hypothesis Rq : reach h root q.
  Hypothesis Gq : hget h q = Some n.
  Hypothesis Nc : edge_get (nedges n) c = None.
  Hypothesis Nr : r <> null.
  Hypothesis Gr : hget h r = None.

  Definition linked : heap := hset (hset h r (Node b [])) q (Node (nfin n) (edge_set (nedges n) c r)).

  Lemma other_node : forall p, reach h root p -> p <> r.
  Proof. intros p (w & P) ->. destruct (So w r P) as (_ & m & G & _). congruence. Qed.

  Lemma linked_at : forall p m, reach h root p -> hget h p = Some m ->
    exists m', hget linked p = Some m' /\ nfin m' = nfin m /\ esorted (nedges m') /\ forall d y, In (d, y) (nedges m') <-> In (d, y) (nedges m) \/ p = q /\ d = c /\ y = r.
  Proof.
    intros p m R G. pose proof R as (w & P). destruct (So w p P) as (_ & m1 & G1 & S1). assert (m1 = m) by congruence. subst m1. unfold linked. destruct (N.eq_dec p q) as [->|N].
    - assert (m = n) by congruence. subst m. rewrite hget_hset_same. eexists. split; [reflexivity|]. cbn [nfin nedges]. split; [reflexivity|]. split; [now apply edge_set_sorted|]. intros d y. split.
      + intros I. apply edge_set_In in I. destruct I as [(-> & ->)|I]; auto.
      + intros [I|(_ & -> & ->)]; apply edge_get_In; rewrite edge_get_set; [|now rewrite ceqb_refl]. apply (edge_In_get _ _ _ _ S1) in I.
        destruct (ceqb d c) eqn:E; [apply ceqb_true in E; subst d|exact I]. unfold ptr in *. rewrite Nc in I. discriminate.
    - rewrite hget_hset_other by auto. rewrite hget_hset_other by (exact (other_node p R)). exists m. split; [exact G|]. split; [reflexivity|]. split; [exact S1|].
      intros d y. split; [auto|]. intros [I|(X & _)]; [exact I|contradiction].
  Qed.

  Lemma linked_new : hget linked r = Some (Node b []).
  Proof. unfold linked. rewrite hget_hset_other by (intros X; apply (other_node q Rq); congruence). apply hget_hset_same. Qed.

  Lemma linked_path : forall w p x, reach h root p -> (path linked p w x <-> path h p w x \/ exists u, w = u ++ [c] /\ path h p u q /\ x = r).
  Proof.
    induction w as [|d w IH]; intros p x R.
    - split; [intros P; inversion P; subst; left; constructor|]. intros [P|(u & E & _)]; [inversion P; subst; constructor|]. destruct u; discriminate E.
    - pose proof R as (v & Pv). destruct (So v p Pv) as (_ & m & G & Sm). destruct (linked_at p m R G) as (m' & G' & _ & _ & Ed). split.
      + intros P. inversion P as [|? m2 ? y ? ? G2 I P']; subst. assert (m2 = m') by congruence. subst m2. apply Ed in I. destruct I as [I|(-> & -> & ->)].
        * apply IH in P'; [|eapply reach_step; eauto]. destruct P' as [P'|(u & -> & P' & ->)]; [left; econstructor; eauto|]. right. exists (d :: u). split; [reflexivity|]. split; [econstructor; eauto|reflexivity].
        * right. inversion P' as [|? m3 ? z ? ? G3 I3 _]; subst; [|rewrite linked_new in G3; injection G3 as <-; destruct I3]. exists []. split; [reflexivity|]. split; [constructor|reflexivity].
      + intros [P|(u & E & P & ->)].
        * inversion P as [|? m2 ? y ? ? G2 I P']; subst. assert (m2 = m) by congruence. subst m2. econstructor; [exact G'|apply Ed; left; exact I|]. apply IH; [eapply reach_step; eauto|now left].
        * destruct u as [|e u]; cbn [app] in E; injection E as -> ->.
          -- inversion P; subst. econstructor; [exact G'|apply Ed; right; auto|constructor].
          -- inversion P as [|? m2 ? y ? ? G2 I P']; subst. assert (m2 = m) by congruence. subst m2. econstructor; [exact G'|apply Ed; left; exact I|]. apply IH; [eapply reach_step; eauto|]. right. eauto.
  Qed.

  Lemma linked_solid : solid linked root.
  Proof.
    intros w x P. apply linked_path in P; [|apply reach_refl]. destruct P as [P|(u & -> & P & ->)].
    - destruct (So w x P) as (N & m & G & _). split; [exact N|]. destruct (linked_at x m (ex_intro _ w P) G) as (m' & G' & _ & S' & _). eauto.
    - split; [exact Nr|]. eexists. split; [exact linked_new|]. constructor.
  Qed.

  Lemma linked_accepts : forall w, accepts_from linked root w <-> accepts_from h root w \/ b = true /\ exists u, w = u ++ [c] /\ path h root u q.
  Proof.
    intros w. split.
    - intros (x & m & P & G & F). apply linked_path in P; [|apply reach_refl]. destruct P as [P|(u & -> & P & ->)].
      + left. destruct (So w x P) as (N & m0 & G0 & _). destruct (linked_at x m0 (ex_intro _ w P) G0) as (m' & G' & Fm & _). exists x, m0. repeat split; auto. congruence.
      + right. rewrite linked_new in G. injection G as <-. split; [exact F|eauto].
    - intros [(x & m & P & G & F)|(Eb & u & -> & P)].
      + destruct (linked_at x m (ex_intro _ w P) G) as (m' & G' & Fm & _). exists x, m'. split; [apply linked_path; [apply reach_refl|auto]|]. split; [exact G'|congruence].
      + exists r. eexists. split; [apply linked_path; [apply reach_refl|eauto]|]. split; [exact linked_new|exact Eb].
  Qed.

  Lemma linked_run : q <> null -> add_edge (hset h r (Node b [])) q c r = Ok linked.
  Proof.
    intros Nq. unfold add_edge. assert (G : hget (hset h r (Node b [])) q = Some n) by (rewrite hget_hset_other by (exact (other_node q Rq)); exact Gq).
    rewrite (read_ok _ _ _ Nq G). cbn [rbind]. unfold transition, delete. unfold ptr in *. rewrite Nc. cbn [N.eqb null rbind]. rewrite (read_ok _ _ _ Nq G). reflexivity.
  Qed.

  Lemma linked_reach : forall x, reach linked root x <-> reach h root x \/ x = r.
  Proof.
    intros x. split; [intros (w & P); apply linked_path in P; [|apply reach_refl]; destruct P as [P|(u & _ & _ & ->)]; [left; exists w; exact P|now right]|].
    intros [(w & P)| ->]; [exists w; apply linked_path; [apply reach_refl|now left]|]. destruct Rq as (u & P). exists (u ++ [c]). apply linked_path; [apply reach_refl|]. right. eauto.
  Qed.
End Link.

(** ** A node is marked *)
Section Mark.
  Variables (h : heap) (root q : ptr) (n : node) (b : bool).
  Hypothesis So : solid h root.
  Hypothesis Gq : hget h q = Some n.

  Definition remarked : heap := hset h q (Node b (nedges n)).

  Lemma remarked_at : forall p m, hget h p = Some m -> hget remarked p = Some (Node (if N.eqb p q then b else nfin m) (nedges m)).
  Proof.
    intros p m G. unfold remarked. destruct (N.eqb_spec p q) as [->|N]; [rewrite hget_hset_same; congruence|]. rewrite hget_hset_other by auto. rewrite G. now destruct m.
  Qed.

  Lemma remarked_path : forall w p x, reach h root p -> (path remarked p w x <-> path h p w x).
  Proof.
    induction w as [|d w IH]; intros p x R; [split; intros P; inversion P; subst; constructor|].
    pose proof R as (v & Pv). destruct (So v p Pv) as (_ & m & G & Sm). pose proof (remarked_at p m G) as G'. split; intros P; inversion P as [|? m2 ? y ? ? G2 I P']; subst.
    - assert (E : nedges m2 = nedges m) by (rewrite G' in G2; injection G2 as <-; reflexivity). rewrite E in I. econstructor; [exact G|exact I|]. apply IH; [eapply reach_step; eauto|exact P'].
    - assert (m2 = m) by congruence. subst m2. econstructor; [exact G'|exact I|]. apply IH; [eapply reach_step; eauto|exact P'].
  Qed.

  Lemma remarked_solid : solid remarked root.
  Proof.
    intros w x P. apply remarked_path in P; [|apply reach_refl]. destruct (So w x P) as (N & m & G & S). split; [exact N|]. rewrite (remarked_at x m G). eauto.
  Qed.

  Lemma remarked_accepts : forall w, accepts_from remarked root w <-> path h root w q /\ b = true \/ ~ path h root w q /\ accepts_from h root w.
  Proof.
    assert (Uni : forall w p x y, reach h root p -> path h p w x -> path h p w y -> x = y).
    { induction w as [|d w IH]; intros p x y R P1 P2; [inversion P1; inversion P2; congruence|].
      inversion P1 as [|? m1 ? x1 ? ? G1 I1 P1']; subst. inversion P2 as [|? m2 ? y1 ? ? G2 I2 P2']; subst. assert (m2 = m1) by congruence. subst m2.
      destruct R as (v & Pv). destruct (So v p Pv) as (_ & m & G & Sm). assert (m = m1) by congruence. subst m. apply (edge_In_get _ _ _ _ Sm) in I1, I2. assert (y1 = x1) by congruence. subst y1.
      apply IH with x1; auto. apply edge_get_In in I1. eapply reach_step; [exists v; exact Pv|exact G|exact I1]. }
    intros w. split.
    - intros (x & m & P & G & F). apply remarked_path in P; [|apply reach_refl]. destruct (So w x P) as (N & m0 & G0 & _). rewrite (remarked_at x m0 G0) in G. injection G as <-. cbn [nfin] in F.
      destruct (N.eqb_spec x q) as [->|Nx]; [left; auto|]. right. split; [intros P2; apply Nx; eapply Uni; eauto using reach_refl|]. exists x, m0. auto.
    - intros [(P & Eb)|(NP & x & m & P & G & F)].
      + exists q. eexists. split; [apply remarked_path; [apply reach_refl|exact P]|]. split; [exact (remarked_at q n Gq)|]. cbn [nfin]. now rewrite N.eqb_refl.
      + exists x. eexists. split; [apply remarked_path; [apply reach_refl|exact P]|]. split; [exact (remarked_at x m G)|]. cbn [nfin]. destruct (N.eqb_spec x q) as [->|Nx]; [contradiction|exact F].
  Qed.

  Lemma remarked_run : q <> null -> set_final h q b = Ok remarked.
  Proof. intros Nq. unfold set_final. rewrite (read_ok _ _ _ Nq Gq). reflexivity. Qed.
End Mark.
