(** * ReplaceProofs: linking a node where it is linked already. *)
From Coq Require Import Sorting.Sorted.
From Verif Require Import Base Spec ModelDawg SpecDawg TreeProofs HeapProofs SerialProofs RoundProofs GraftProofs.
Local Open Scope nat_scope.

Lemma path_again : forall h w p k, path h p w p -> path h p (concat (repeat w k)) p.
Proof. intros h w p. induction k as [|k IH]; intros P; [constructor|]. cbn [repeat concat]. eapply path_app; eauto. Qed.

Lemma unf_no_return : forall h p t w, unf h p t -> path h p w p -> w = [].
Proof.
  intros h p t w U P. destruct w as [|c w]; [reflexivity|]. exfalso. pose proof (unf_path_short _ _ _ _ _ U (path_again _ _ _ (height t) P)) as X.
  assert (Le : forall k, k <= length (concat (repeat (c :: w) k))) by (induction k as [|k IH]; cbn [repeat concat]; [lia|rewrite app_length; cbn [length]; lia]). specialize (Le (height t)). lia.
Qed.

Lemma path_split : forall h u s p x, path h p (u ++ s) x -> exists y, path h p u y /\ path h y s x.
Proof.
  intros h. induction u as [|c u IH]; intros s p x P; [exists p; split; [constructor|exact P]|]. cbn [app] in P. inversion P as [|? m ? z ? ? G I P']; subst.
  destruct (IH s z x P') as (y & P1 & P2). exists y. split; [econstructor; eauto|exact P2].
Qed.

Section Replace.
  Variables (h : heap) (root q r y : ptr) (n : node) (b : bool) (c : char).
  Hypothesis So : solid h root.
  Hypothesis Ac : forall p w, reach h root p -> path h p w p -> w = [].
  Hypothesis Rq : reach h root q.
  Hypothesis Gq : hget h q = Some n.
  Hypothesis Ec : In (c, y) (nedges n).
  Hypothesis Nr : r <> null.
  Hypothesis Gr : hget h r = None.

  Definition replaced : heap := hset (hdel (hset h r (Node b [])) y) q (Node (nfin n) (edge_set (nedges n) c r)).

  Lemma other_node' : forall p, reach h root p -> p <> r.
  Proof. intros p (w & P) ->. destruct (So w r P) as (_ & m & G & _). congruence. Qed.

  Lemma step_y : path h q [c] y.
  Proof. econstructor; [exact Gq|exact Ec|constructor]. Qed.

  Lemma reach_y : reach h root y.
  Proof. destruct Rq as (w & P). exists (w ++ [c]). eapply path_app; [exact P|exact step_y]. Qed.

  Lemma y_never_q : forall w, ~ path h y w q.
  Proof. intros w P. assert (X : path h q ([c] ++ w) q) by (eapply path_app; [exact step_y|exact P]). apply Ac in X; [discriminate X|exact Rq]. Qed.

  Lemma y_not_q : y <> q.
  Proof. intros E. apply (y_never_q []). rewrite E. constructor. Qed.

  Lemma y_not_root : y <> root.
  Proof. intros E. destruct Rq as (w & P). apply (y_never_q w). rewrite E. exact P. Qed.

  Lemma replaced_at : forall p m, reach h root p -> p <> y -> hget h p = Some m ->
    exists m', hget replaced p = Some m' /\ nfin m' = nfin m /\ esorted (nedges m') /\
      forall d x, In (d, x) (nedges m') <-> In (d, x) (nedges m) /\ ~ (p = q /\ d = c) \/ p = q /\ d = c /\ x = r.
  Proof.
    intros p m R Ny G. pose proof R as (w & P). destruct (So w p P) as (_ & m1 & G1 & S1). assert (m1 = m) by congruence. subst m1. unfold replaced. destruct (N.eq_dec p q) as [->|N].
    - assert (m = n) by congruence. subst m. rewrite hget_hset_same. eexists. split; [reflexivity|]. cbn [nfin nedges]. split; [reflexivity|]. split; [now apply edge_set_sorted|]. intros d x.
      pose proof (edge_set_sorted _ _ c r S1) as S2. split.
      + intros I. apply (edge_In_get _ _ _ _ S2) in I. rewrite edge_get_set in I. destruct (ceqb d c) eqn:E.
        * apply ceqb_true in E. subst d. injection I as <-. right. auto.
        * left. apply edge_get_In in I. split; [exact I|]. intros (_ & ->). rewrite ceqb_refl in E. discriminate.
      + intros [(I & N)|(_ & -> & ->)]; apply edge_get_In; rewrite edge_get_set; [|now rewrite ceqb_refl]. apply (edge_In_get _ _ _ _ S1) in I.
        destruct (ceqb d c) eqn:E; [apply ceqb_true in E; subst d; destruct N; auto|exact I].
    - rewrite hget_hset_other by auto. rewrite hget_hdel. apply N.eqb_neq in Ny. rewrite Ny. rewrite hget_hset_other by (exact (other_node' p R)). exists m. split; [exact G|]. split; [reflexivity|]. split; [exact S1|].
      intros d x. split; [intros I; left; split; [exact I|]; intros (X & _); contradiction|]. intros [(I & _)|(X & _)]; [exact I|contradiction].
  Qed.

  Lemma replaced_gone : hget replaced y = None.
  Proof. unfold replaced. rewrite hget_hset_other by (exact y_not_q). now rewrite hget_hdel, N.eqb_refl. Qed.

  Lemma replaced_new : hget replaced r = Some (Node b []).
  Proof.
    unfold replaced. rewrite hget_hset_other by (intros X; apply (other_node' q Rq); congruence). rewrite hget_hdel.
    destruct (N.eqb_spec r y) as [X|_]; [exfalso; apply (other_node' y reach_y); congruence|]. apply hget_hset_same.
  Qed.

  (** Strings that go along the edge, and through its old target. *)
  Definition via (p : ptr) (w : str) : Prop := exists u s, w = u ++ c :: s /\ path h p u q.
  Definition beyond (p : ptr) (w : str) : Prop := exists u s, w = u ++ s /\ s <> [] /\ path h p u y.

  Lemma one_edge : forall p m d x1 x2, reach h root p -> hget h p = Some m -> In (d, x1) (nedges m) -> In (d, x2) (nedges m) -> x1 = x2.
  Proof.
    intros p m d x1 x2 (w & P) G I1 I2. destruct (So w p P) as (_ & m1 & G1 & S1). assert (m1 = m) by congruence. subst m1.
    apply (edge_In_get _ _ _ _ S1) in I1. apply (edge_In_get _ _ _ _ S1) in I2. unfold ptr in *. congruence.
  Qed.

  Lemma replaced_path : forall w p x, reach h root p ->
    (path replaced p w x <-> path h p w x /\ ~ via p w /\ ~ beyond p w \/ exists u, w = u ++ [c] /\ path h p u q /\ x = r).
  Proof.
    induction w as [|d w IH]; intros p x R.
    - split.
      + intros P. inversion P; subst. left. split; [constructor|]. split; [intros (u & s & E & _); destruct u; discriminate E|]. intros (u & s & E & Ns & _). destruct u; [|discriminate E]. cbn [app] in E. congruence.
      + intros [(P & _)|(u & E & _)]; [inversion P; subst; constructor|]. destruct u; discriminate E.
    - destruct (N.eq_dec p y) as [->|Ny].
      + split; [intros P; inversion P as [|? m ? z ? ? G I P']; subst; rewrite replaced_gone in G; discriminate|].
        intros [(_ & _ & B)|(u & _ & P & _)]; [|destruct (y_never_q u P)]. destruct B. exists [], (d :: w). split; [reflexivity|]. split; [discriminate|constructor].
      + pose proof R as (v & Pv). destruct (So v p Pv) as (_ & m & G & Sm). destruct (replaced_at p m R Ny G) as (m' & G' & _ & _ & Ed). split.
        * intros P. inversion P as [|? m2 ? z ? ? G2 I P']; subst. assert (m2 = m') by congruence. subst m2. apply Ed in I. destruct I as [(I & Nq)|(-> & -> & ->)].
          -- assert (Rz : reach h root z) by (eapply reach_step; eauto). apply IH in P'; [|exact Rz]. destruct P' as [(P' & NV & NB)|(u & -> & P' & ->)].
             ++ left. split; [econstructor; eauto|]. split.
                ** intros (u & s & E & Pu). destruct u as [|e u]; cbn [app] in E; injection E as -> ->; [inversion Pu; subst; destruct Nq; auto|].
                   inversion Pu as [|? m3 ? z' ? ? G3 I3 P3]; subst. assert (m3 = m) by congruence. subst m3. rewrite (one_edge p m e z z' R G I I3) in NV. apply NV. exists u, s. auto.
                ** intros (u & s & E & Ns & Pu). destruct u as [|e u]; cbn [app] in E; [inversion Pu; subst; destruct Ny; reflexivity|]. injection E as -> ->.
                   inversion Pu as [|? m3 ? z' ? ? G3 I3 P3]; subst. assert (m3 = m) by congruence. subst m3. rewrite (one_edge p m e z z' R G I I3) in NB. apply NB. exists u, s. auto.
             ++ right. exists (d :: u). split; [reflexivity|]. split; [econstructor; eauto|reflexivity].
          -- right. inversion P' as [|? m3 ? z ? ? G3 I3 _]; subst; [|rewrite replaced_new in G3; injection G3 as <-; destruct I3]. exists []. split; [reflexivity|]. split; [constructor|reflexivity].
        * intros [(P & NV & NB)|(u & E & P & ->)].
          -- inversion P as [|? m2 ? z ? ? G2 I P']; subst. assert (m2 = m) by congruence. subst m2. econstructor; [exact G'|apply Ed; left; split; [exact I|]|].
             ++ intros (-> & ->). apply NV. exists [], w. split; [reflexivity|constructor].
             ++ apply IH; [eapply reach_step; eauto|]. left. split; [exact P'|]. split.
                ** intros (u & s & -> & Pu). apply NV. exists (d :: u), s. split; [reflexivity|econstructor; eauto].
                ** intros (u & s & -> & Ns & Pu). apply NB. exists (d :: u), s. split; [reflexivity|]. split; [exact Ns|econstructor; eauto].
          -- destruct u as [|e u]; cbn [app] in E; injection E as -> ->.
             ++ inversion P; subst. econstructor; [exact G'|apply Ed; right; auto|constructor].
             ++ inversion P as [|? m2 ? z ? ? G2 I P']; subst. assert (m2 = m) by congruence. subst m2. econstructor; [exact G'|apply Ed; left; split; [exact I|]|].
                ** intros (-> & ->). apply Ac in P; [discriminate P|exact R].
                ** apply IH; [eapply reach_step; eauto|]. right. eauto.
  Qed.

  Lemma replaced_run : q <> null -> y <> null -> add_edge (hset h r (Node b [])) q c r = Ok replaced.
  Proof.
    intros Nq Ny. unfold add_edge. assert (G : hget (hset h r (Node b [])) q = Some n) by (rewrite hget_hset_other by (exact (other_node' q Rq)); exact Gq).
    rewrite (read_ok _ _ _ Nq G). cbn [rbind]. unfold transition. destruct Rq as (w & P). destruct (So w q P) as (_ & m & Gm & Sm). assert (m = n) by congruence. subst m.
    rewrite (edge_In_get _ _ _ _ Sm Ec). unfold delete. rewrite (proj2 (N.eqb_neq _ _) Ny).
    destruct reach_y as (w' & P'). destruct (So w' y P') as (_ & my & Gy & _). rewrite hget_hset_other by (exact (other_node' y reach_y)). rewrite Gy. cbn [rbind].
    assert (G2 : hget (hdel (hset h r (Node b [])) y) q = Some n) by (rewrite hget_hdel; rewrite (proj2 (N.eqb_neq _ _) (fun E => y_not_q (eq_sym E))); exact G).
    rewrite (read_ok _ _ _ Nq G2). reflexivity.
  Qed.

  (** *** The old target is reached in another way, too *)
  Lemma replaced_dangles : forall w, path h root w y -> ~ via root w -> path replaced root w y.
  Proof.
    intros w P NV. apply replaced_path; [apply reach_refl|]. left. split; [exact P|]. split; [exact NV|]. intros (u & s & -> & Ns & Pu).
    destruct (path_split _ _ _ _ _ P) as (z & P1 & P2). assert (z = y); [|subst z; apply Ac in P2; [contradiction|exact reach_y]].
    revert P1 Pu. generalize (reach_refl h root). generalize root at 2 3 4. clear P NV P2. induction u as [|d u IH]; intros p R P1 Pu; [inversion P1; inversion Pu; congruence|].
    inversion P1 as [|? m1 ? z1 ? ? G1 I1 P1']; subst. inversion Pu as [|? m2 ? z2 ? ? G2 I2 Pu']; subst. assert (m2 = m1) by congruence. subst m2.
    rewrite (one_edge p m1 d z1 z2 R G1 I1 I2) in P1'. apply (IH z2); auto. eapply reach_step; eauto.
  Qed.

  (** *** The old target is reached along this edge only *)
  Hypothesis Un : forall p m d, reach h root p -> hget h p = Some m -> In (d, y) (nedges m) -> p = q /\ d = c.

  Lemma only_via : forall w, path h root w y -> via root w.
  Proof.
    intros w P. destruct w as [|d u _] using rev_ind; [exfalso; apply y_not_root; inversion P; congruence|]. destruct (path_split _ _ _ _ _ P) as (p & P1 & P2).
    inversion P2 as [|? m ? z ? ? G I P3]; subst. inversion P3; subst. destruct (Un p m d (ex_intro _ u P1) G I) as (-> & ->). exists u, []. auto.
  Qed.

  Lemma cut_path : forall w x, path replaced root w x <-> path h root w x /\ ~ via root w \/ exists u, w = u ++ [c] /\ path h root u q /\ x = r.
  Proof.
    intros w x. rewrite (replaced_path w root x (reach_refl _ _)). split; (intros [X|X]; [left|right; exact X]).
    - tauto.
    - destruct X as (P & NV). split; [exact P|]. split; [exact NV|]. intros (u & s & -> & Ns & Pu). apply NV. destruct (only_via u Pu) as (u1 & s1 & -> & P1). exists u1, (s1 ++ s). split; [|exact P1]. rewrite <- app_assoc. reflexivity.
  Qed.

  Lemma cut_old : forall w x, path h root w x -> ~ via root w -> x <> y.
  Proof. intros w x P NV ->. apply NV, only_via, P. Qed.

  Lemma cut_solid : solid replaced root.
  Proof.
    intros w x P. apply cut_path in P. destruct P as [(P & NV)|(u & -> & P & ->)].
    - destruct (So w x P) as (N & m & G & _). split; [exact N|]. destruct (replaced_at x m (ex_intro _ w P) (cut_old w x P NV) G) as (m' & G' & _ & S' & _). eauto.
    - split; [exact Nr|]. eexists. split; [exact replaced_new|]. constructor.
  Qed.

  Lemma cut_accepts : forall w, accepts_from replaced root w <-> accepts_from h root w /\ ~ via root w \/ b = true /\ exists u, w = u ++ [c] /\ path h root u q.
  Proof.
    intros w. split.
    - intros (x & m & P & G & F). apply cut_path in P. destruct P as [(P & NV)|(u & -> & P & ->)].
      + left. split; [|exact NV]. destruct (So w x P) as (N & m0 & G0 & _). destruct (replaced_at x m0 (ex_intro _ w P) (cut_old w x P NV) G0) as (m' & G' & Fm & _). exists x, m0. repeat split; auto. congruence.
      + right. rewrite replaced_new in G. injection G as <-. split; [exact F|eauto].
    - intros [((x & m & P & G & F) & NV)|(Eb & u & -> & P)].
      + destruct (replaced_at x m (ex_intro _ w P) (cut_old w x P NV) G) as (m' & G' & Fm & _). exists x, m'. split; [apply cut_path; auto|]. split; [exact G'|congruence].
      + exists r. eexists. split; [apply cut_path; eauto|]. split; [exact replaced_new|exact Eb].
  Qed.

  Lemma cut_reach : forall x, reach replaced root x <-> (exists w, path h root w x /\ ~ via root w) \/ x = r.
  Proof.
    intros x. split; [intros (w & P); apply cut_path in P; destruct P as [P|(u & _ & _ & ->)]; [left; exists w; exact P|now right]|].
    intros [(w & P)| ->]; [exists w; apply cut_path; now left|]. destruct Rq as (u & P). exists (u ++ [c]). apply cut_path. right. eauto.
  Qed.
End Replace.

(** ** Reading what is not there *)
Lemma contains_gone : forall h x w p i, (forall q u, path h p u q -> u <> w -> q <> null) -> path h p w x -> (forall u q m, path h p u q -> hget h q = Some m -> esorted (nedges m)) ->
  (i + N.of_nat (length w) <= 2147483647)%N -> contains_loop h p i w = Ok x.
Proof.
  intros h x. induction w as [|c w IH]; intros p i Nn P S L; [inversion P; subst; reflexivity|]. inversion P as [|? m ? z ? ? G I P']; subst. cbn [contains_loop length] in *.
  assert (Np : p <> null) by (apply (Nn p []); [constructor|discriminate]). rewrite (proj2 (N.eqb_neq _ _) Np), (read_ok _ _ _ Np G). cbn [rbind].
  rewrite (proj2 (N.eqb_neq _ _)) by lia. unfold transition. rewrite (edge_In_get _ _ _ _ (S [] p m (path_nil _ _) G) I). apply IH; auto.
  - intros q u Pu Nu. apply (Nn q (c :: u)); [econstructor; eauto|congruence].
  - intros u q m' Pu G'. apply (S (c :: u) q m'); [econstructor; eauto|exact G'].
  - lia.
Qed.

Lemma gone_loop : forall h x, read h x = UB -> forall w p, path h p w x -> (forall u q, path h p u q -> q <> null) -> forall pre post seen,
  exists N, forall fuel, N <= fuel -> all_nodes_loop fuel h (pre ++ p :: post) seen = UB.
Proof.
  intros h x Gone w. induction w as [|c w IHw]; intros p P Nn.
  - inversion P; subst. induction pre as [|e pre IHp]; intros post seen.
    + exists 1. intros [|fuel] H; [lia|]. cbn [all_nodes_loop app]. rewrite Gone. reflexivity.
    + destruct (read h e) as [n| |] eqn:R.
      * destruct (IHp (post ++ map snd (nedges n)) (set_insert e seen)) as (N & X). exists (S N). intros [|fuel] H; [lia|].
        cbn [all_nodes_loop app]. rewrite R. cbn [rbind]. rewrite <- app_assoc. apply X. lia.
      * exists 1. intros [|fuel] H; [lia|]. cbn [all_nodes_loop app]. rewrite R. reflexivity.
      * unfold read in R. destruct (e =? null)%N; [discriminate|]. destruct (hget h e); discriminate.
  - inversion P as [|? m ? z ? ? G I P']; subst. pose proof (read_ok _ _ _ (Nn [] p (path_nil _ _)) G) as R. pose proof I as I0.
    apply (in_map snd) in I. cbn [snd] in I. apply in_split in I. destruct I as (l1 & l2 & El).
    induction pre as [|e pre IHp]; intros post seen.
    + destruct (IHw z P' (fun u q Pu => Nn (c :: u) q (path_cons _ _ _ _ _ _ _ G I0 Pu)) (post ++ l1) l2 (set_insert p seen)) as (N & X). exists (S N). intros [|fuel] H; [lia|].
      cbn [all_nodes_loop app]. rewrite R. cbn [rbind]. rewrite El. rewrite app_assoc. apply X. lia.
    + destruct (read h e) as [n'| |] eqn:R'.
      * destruct (IHp (post ++ map snd (nedges n')) (set_insert e seen)) as (N & X). exists (S N). intros [|fuel] H; [lia|].
        cbn [all_nodes_loop app]. rewrite R'. cbn [rbind]. rewrite <- app_assoc. apply X. lia.
      * exists 1. intros [|fuel] H; [lia|]. cbn [all_nodes_loop app]. rewrite R'. reflexivity.
      * unfold read in R'. destruct (e =? null)%N; [discriminate|]. destruct (hget h e); discriminate.
Qed.
