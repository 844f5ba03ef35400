(** * SameProofs: comparing dictionaries whatever their nodes are. *)
From Coq Require Import Sorting.Sorted.
From Verif Require Import Base Spec ModelTransducer ModelDawg ModelQuery SpecDawg SpecQuery SpecAlike SpecSame TreeProofs HeapProofs SerialProofs RoundProofs MirrorProofs.
Local Open Scope nat_scope.

Lemma sorted_labels : forall A B (es1 : list (char * A)) (es2 : list (char * B)), esorted es1 -> esorted es2 -> (forall c, In c (map fst es1) <-> In c (map fst es2)) -> map fst es1 = map fst es2.
Proof.
  intros A B. induction es1 as [|[c1 a1] es1 IH]; intros [|[c2 a2] es2] S1 S2 I; cbn [map fst].
  - reflexivity.
  - destruct (proj2 (I c2) (or_introl eq_refl)).
  - destruct (proj1 (I c1) (or_introl eq_refl)).
  - inversion S1 as [|? ? S1' F1]; subst. inversion S2 as [|? ? S2' F2]; subst. rewrite Forall_forall in F1, F2.
    assert (L1 : forall c, In c (map fst es1) -> (schar c1 < schar c)%Z) by (intros c X; apply in_map_iff in X; destruct X as (e & <- & X); exact (F1 e X)).
    assert (L2 : forall c, In c (map fst es2) -> (schar c2 < schar c)%Z) by (intros c X; apply in_map_iff in X; destruct X as (e & <- & X); exact (F2 e X)).
    assert (E : c1 = c2).
    { destruct (proj1 (I c1) (or_introl eq_refl)) as [X|X]; [cbn in X; congruence|]. destruct (proj2 (I c2) (or_introl eq_refl)) as [Y|Y]; [cbn in Y; congruence|]. specialize (L1 _ Y). specialize (L2 _ X). lia. }
    subst c2. f_equal. apply IH; auto. intros c. split; intros X.
    + destruct (proj1 (I c) (or_intror X)) as [Y|Y]; [|exact Y]. cbn in Y. subst c. specialize (L1 _ X). lia.
    + destruct (proj2 (I c) (or_intror X)) as [Y|Y]; [|exact Y]. cbn in Y. subst c. specialize (L2 _ X). lia.
Qed.

Lemma same_edges : forall (M : ptr -> ptr -> Prop) (es1 es2 : list (char * ptr)), map fst es1 = map fst es2 -> (forall c q1 q2, In (c, q1) es1 -> In (c, q2) es2 -> M q1 q2) -> edges_like M es1 es2.
Proof.
  intros M. unfold edges_like. induction es1 as [|[c1 q1] es1 IH]; intros [|[c2 q2] es2] E X; try discriminate E; [constructor|]. cbn [map fst] in E. injection E as -> E.
  constructor; [split; [reflexivity|]; apply (X c2); now left|]. apply IH; [exact E|]. intros c a b I1 I2. apply (X c); now right.
Qed.

(** ** One step *)
Lemma accepts_step : forall h p n c q w, solid h p -> hget h p = Some n -> In (c, q) (nedges n) -> (accepts_from h p (c :: w) <-> accepts_from h q w).
Proof.
  intros h p n c q w S G I. destruct (S [] p (path_nil _ _)) as (_ & n' & G' & So). assert (n' = n) by congruence. subst n'. split.
  - intros (x & m & P & X). inversion P as [|? n2 ? z ? ? G2 I2 P2]; subst. assert (n2 = n) by congruence. subst n2. pose proof (edge_In_get _ _ _ _ So I) as E1. pose proof (edge_In_get _ _ _ _ So I2) as E2. unfold ptr in *. rewrite E1 in E2. injection E2 as <-. exists x, m. auto.
  - intros (x & m & P & X). exists x, m. split; [econstructor; eauto|exact X].
Qed.

Lemma leads_step : forall h p n c q w, solid h p -> hget h p = Some n -> In (c, q) (nedges n) -> ((exists x, path h p (c :: w) x) <-> exists x, path h q w x).
Proof.
  intros h p n c q w S G I. destruct (S [] p (path_nil _ _)) as (_ & n' & G' & So). assert (n' = n) by congruence. subst n'. split.
  - intros (x & P). inversion P as [|? n2 ? z ? ? G2 I2 P2]; subst. assert (n2 = n) by congruence. subst n2. pose proof (edge_In_get _ _ _ _ So I) as E1. pose proof (edge_In_get _ _ _ _ So I2) as E2. unfold ptr in *. rewrite E1 in E2. injection E2 as <-. eauto.
  - intros (x & P). exists x. econstructor; eauto.
Qed.

Lemma leads_one : forall h p n c, hget h p = Some n -> ((exists x, path h p [c] x) <-> In c (map fst (nedges n))).
Proof.
  intros h p n c G. split.
  - intros (x & P). inversion P as [|? n2 ? z ? ? G2 I2 P2]; subst. assert (n2 = n) by congruence. subst n2. apply in_map_iff. exists (c, z). auto.
  - intros I. apply in_map_iff in I. destruct I as ((c' & q) & E & I). cbn in E. subst c'. exists q. econstructor; [exact G|exact I|constructor].
Qed.

Lemma accepts_nil : forall h p n, hget h p = Some n -> (accepts_from h p [] <-> nfin n = true).
Proof. intros h p n G. split; [intros (x & m & P & Gx & F); inversion P; subst; congruence|]. intros F. exists p, n. split; [constructor|auto]. Qed.

Lemma same_step : forall h1 p1 h2 p2 n1 n2, solid h1 p1 -> solid h2 p2 -> hget h1 p1 = Some n1 -> hget h2 p2 = Some n2 ->
  (same_strings h1 p1 h2 p2 <-> nfin n1 = nfin n2 /\ map fst (nedges n1) = map fst (nedges n2) /\
     forall c q1 q2, In (c, q1) (nedges n1) -> In (c, q2) (nedges n2) -> same_strings h1 q1 h2 q2).
Proof.
  intros h1 p1 h2 p2 n1 n2 S1 S2 G1 G2.
  assert (O1 : esorted (nedges n1)) by (destruct (S1 [] p1 (path_nil _ _)) as (_ & m & G & So); congruence).
  assert (O2 : esorted (nedges n2)) by (destruct (S2 [] p2 (path_nil _ _)) as (_ & m & G & So); congruence). split.
  - intros Sa. split; [|split].
    + apply eq_true_iff_eq. rewrite <- (accepts_nil _ _ _ G1), <- (accepts_nil _ _ _ G2). apply Sa.
    + apply sorted_labels; auto. intros c. rewrite <- (leads_one _ _ _ c G1), <- (leads_one _ _ _ c G2). apply Sa.
    + intros c q1 q2 I1 I2 w. rewrite <- (accepts_step _ _ _ _ _ w S1 G1 I1), <- (accepts_step _ _ _ _ _ w S2 G2 I2), <- (leads_step _ _ _ _ _ w S1 G1 I1), <- (leads_step _ _ _ _ _ w S2 G2 I2). apply Sa.
  - intros (F & L & T) [|c w].
    + rewrite (accepts_nil _ _ _ G1), (accepts_nil _ _ _ G2), F. split; [reflexivity|]. split; intros _; [exists p2|exists p1]; constructor.
    + destruct (edge_get (nedges n1) c) as [q1|] eqn:E1.
      * apply edge_get_In in E1. assert (I2 : In c (map fst (nedges n2))) by (rewrite <- L; apply in_map_iff; exists (c, q1); auto). apply in_map_iff in I2. destruct I2 as ((c' & q2) & X & I2). cbn in X. subst c'.
        rewrite (accepts_step _ _ _ _ _ w S1 G1 E1), (accepts_step _ _ _ _ _ w S2 G2 I2), (leads_step _ _ _ _ _ w S1 G1 E1), (leads_step _ _ _ _ _ w S2 G2 I2). exact (T c q1 q2 E1 I2 w).
      * assert (N1 : ~ In c (map fst (nedges n1))) by (intros X; apply in_map_iff in X; destruct X as ((c' & q) & X & I); cbn in X; subst c'; rewrite (edge_In_get _ _ _ _ O1 I) in E1; discriminate).
        assert (N2 : ~ In c (map fst (nedges n2))) by (now rewrite <- L).
        assert (X1 : ~ exists x, path h1 p1 (c :: w) x) by (intros (x & P); inversion P as [|? m ? z ? ? G I _]; subst; apply N1, in_map_iff; exists (c, z); split; [reflexivity|congruence]).
        assert (X2 : ~ exists x, path h2 p2 (c :: w) x) by (intros (x & P); inversion P as [|? m ? z ? ? G I _]; subst; apply N2, in_map_iff; exists (c, z); split; [reflexivity|congruence]).
        split; [|tauto]. split; intros (x & m & P & _); exfalso; eauto.
Qed.

(** ** They behave in the same way *)
Lemma same_alike : forall h1 d1 h2 d2, solid h1 (d_root d1) -> solid h2 (d_root d2) -> same_strings h1 (d_root d1) h2 (d_root d2) -> d_size d1 = d_size d2 -> alike h1 d1 h2 d2.
Proof.
  intros h1 [p1 s1] h2 [p2 s2] S1 S2 Sa Es. cbn [d_root d_size] in *. subst s2. set (M := fun p p' => solid h1 p /\ solid h2 p' /\ same_strings h1 p h2 p').
  assert (HM : forall p p', M p p' -> p <> null /\ p' <> null /\ both (nodes_like M) (read h1 p) (read h2 p')).
  { intros p p' (T1 & T2 & Sp). destruct (T1 [] p (path_nil _ _)) as (N1 & n1 & G1 & O1). destruct (T2 [] p' (path_nil _ _)) as (N2 & n2 & G2 & O2). split; [exact N1|]. split; [exact N2|].
    rewrite (read_ok _ _ _ N1 G1), (read_ok _ _ _ N2 G2). cbn. apply (same_step _ _ _ _ _ _ T1 T2 G1 G2) in Sp. destruct Sp as (F & L & T). split; [exact F|]. apply same_edges; [exact L|].
    intros c q1 q2 I1 I2. split; [eapply solid_step; eauto|]. split; [eapply solid_step; eauto|]. exact (T c q1 q2 I1 I2). }
  assert (M0 : M p1 p2) by (split; [exact S1|split; [exact S2|exact Sa]]). constructor.
  - reflexivity.
  - intros w. exact (contains_like h1 h2 M HM p1 p2 s1 s1 w M0).
  - intros fuel. exact (iterate_like h1 h2 M HM fuel p1 p2 s1 M0).
  - intros fuel. exact (dawg_hash_like h1 h2 M HM fuel p1 p2 s1 M0).
  - intros R rt alg fuel q n. cbn [d_root]. exact (query_all_like h1 h2 M HM rt alg q n fuel p1 p2 M0).
Qed.

(** ** operator== *)
Lemma in_labels : forall (es : list (char * ptr)) c, esorted es -> (In c (map fst es) <-> exists q, edge_get es c = Some q).
Proof.
  intros es c S. split; [intros I; apply in_map_iff in I; destruct I as ((c' & q) & E & I); cbn in E; subst c'; exists q; exact (edge_In_get _ _ _ _ S I)|].
  intros (q & E). apply edge_get_In in E. apply in_map_iff. exists (c, q). auto.
Qed.

Lemma labels_NoDup : forall (es : list (char * ptr)), esorted es -> NoDup (map fst es).
Proof.
  intros es S. unfold esorted in S. induction es as [|[c a] es IH]; [constructor|]. cbn [map] in *. inversion S as [|? ? S' F]; subst. constructor; [|auto].
  intros I. rewrite Forall_forall in F. apply in_map_iff in I. destruct I as (e & E & I). specialize (F _ I). unfold elt in F. cbn [fst] in *. rewrite E in F. lia.
Qed.

(** What the loop over the edges says, if the calls on the targets say what they should. *)
Lemma each_sound : forall fuel h b es, (forall c q, In (c, q) es -> solid h q /\ forall q2, edge_get (nedges b) c = Some q2 -> solid h q2) ->
  (forall p1 p2 n1 n2, solid h p1 -> solid h p2 -> hget h p1 = Some n1 -> hget h p2 = Some n2 ->
     match node_eq fuel h n1 n2 with UB => False | OOF => True | Ok r => r = true <-> same_strings h p1 h p2 end) ->
  match eq_each fuel h b es with
  | UB => False
  | OOF => True
  | Ok r => r = true <-> forall c q1, In (c, q1) es -> exists q2, edge_get (nedges b) c = Some q2 /\ same_strings h q1 h q2
  end.
Proof.
  intros fuel h b es Sol IH. induction es as [|[c q] es IHe]; cbn [eq_each]; [split; [intros _ c q []|reflexivity]|]. destruct (Sol c q (or_introl eq_refl)) as (Sq & S2).
  unfold transition. destruct (edge_get (nedges b) c) as [q2|] eqn:E.
  - specialize (S2 q2 eq_refl). destruct (Sq [] q (path_nil _ _)) as (N1 & n1 & G1 & _). destruct (S2 [] q2 (path_nil _ _)) as (N2 & n2 & G2 & _).
    rewrite (proj2 (N.eqb_neq _ _) N2), (read_ok _ _ _ N1 G1), (read_ok _ _ _ N2 G2). cbn [rbind]. specialize (IH q q2 n1 n2 Sq S2 G1 G2).
    destruct (node_eq fuel h n1 n2) as [e| |]; cbn [rbind]; [|exact IH|exact Logic.I]. destruct e.
    + specialize (IHe (fun c q I => Sol c q (or_intror I))). destruct (eq_each fuel h b es) as [r| |]; auto. rewrite IHe. split.
      * intros X c' q' [I|I]; [injection I as <- <-; exists q2; split; [exact E|apply IH; reflexivity]|exact (X c' q' I)].
      * intros X c' q' I. exact (X c' q' (or_intror I)).
    + split; [discriminate|]. intros X. destruct (X c q (or_introl eq_refl)) as (q3 & E3 & Sa). unfold ptr in *. rewrite E in E3. injection E3 as <-. exact (proj2 IH Sa).
  - rewrite N.eqb_refl. split; [discriminate|]. intros X. destruct (X c q (or_introl eq_refl)) as (q3 & E3 & _). unfold ptr in *. rewrite E in E3. discriminate.
Qed.

Lemma eq_sound : forall fuel h p1 p2 n1 n2, solid h p1 -> solid h p2 -> hget h p1 = Some n1 -> hget h p2 = Some n2 ->
  match node_eq fuel h n1 n2 with UB => False | OOF => True | Ok r => r = true <-> same_strings h p1 h p2 end.
Proof.
  induction fuel as [|fuel IH]; intros h p1 p2 n1 n2 S1 S2 G1 G2; [exact Logic.I|]. rewrite node_eq_S. pose proof (same_step _ _ _ _ _ _ S1 S2 G1 G2) as SS.
  assert (O1 : esorted (nedges n1)) by (destruct (S1 [] p1 (path_nil _ _)) as (_ & m & G & So); congruence).
  assert (O2 : esorted (nedges n2)) by (destruct (S2 [] p2 (path_nil _ _)) as (_ & m & G & So); congruence).
  destruct (Bool.eqb (nfin n1) (nfin n2)) eqn:Ef; cbn [negb]; [apply Bool.eqb_prop in Ef|rewrite SS; split; [discriminate|]; intros (F & _); rewrite F, Bool.eqb_reflx in Ef; discriminate].
  destruct (Nat.eqb_spec (length (nedges n1)) (length (nedges n2))) as [El|El]; cbn [negb].
  2:{ rewrite SS. split; [discriminate|]. intros (_ & L & _). destruct El. rewrite <- (map_length fst (nedges n1)), L, map_length. reflexivity. }
  pose proof (each_sound fuel h n2 (nedges n1)) as X. specialize (X (fun c q I => conj (solid_step _ _ _ _ _ S1 G1 I) (fun q2 E => solid_step _ _ _ _ _ S2 G2 (edge_get_In _ _ _ _ E))) (IH h)).
  destruct (eq_each fuel h n2 (nedges n1)) as [r| |]; auto. rewrite X, SS. split.
  - intros Y. split; [exact Ef|].
    assert (Inc : incl (map fst (nedges n1)) (map fst (nedges n2))).
    { intros c I. apply in_map_iff in I. destruct I as ((c' & q) & E & I). cbn in E. subst c'. destruct (Y c q I) as (q2 & E2 & _). apply in_labels; eauto. }
    assert (Inc2 : incl (map fst (nedges n2)) (map fst (nedges n1))) by (apply NoDup_length_incl; [now apply labels_NoDup|rewrite !map_length; lia|exact Inc]).
    split; [apply sorted_labels; auto; intros c; split; [apply Inc|apply Inc2]|].
    intros c q1 q2 I1 I2. destruct (Y c q1 I1) as (q3 & E3 & Sa). pose proof (edge_In_get _ _ _ _ O2 I2) as E2. unfold ptr in *. rewrite E2 in E3. injection E3 as <-. exact Sa.
  - intros (_ & L & T) c q1 I1. assert (I2 : In c (map fst (nedges n2))) by (rewrite <- L; apply in_map_iff; exists (c, q1); auto). apply in_labels in I2; [|exact O2]. destruct I2 as (q2 & E2). exists q2. split; [exact E2|]. apply (T c q1 q2 I1). now apply edge_get_In.
Qed.

Definition short (h : heap) (p : ptr) (k : nat) : Prop := forall w q, path h p w q -> length w < k.

Lemma short_step : forall h p n c q k, short h p (S k) -> hget h p = Some n -> In (c, q) (nedges n) -> short h q k.
Proof. intros h p n c q k S G I w x P. specialize (S (c :: w) x (path_cons _ _ _ _ _ _ _ G I P)). cbn [length] in S. lia. Qed.

Lemma eq_ends : forall fuel h p1 p2 n1 n2, solid h p1 -> solid h p2 -> hget h p1 = Some n1 -> hget h p2 = Some n2 -> short h p1 fuel \/ short h p2 fuel -> node_eq fuel h n1 n2 <> OOF.
Proof.
  induction fuel as [|fuel IH]; intros h p1 p2 n1 n2 S1 S2 G1 G2 Sh.
  - destruct Sh as [Sh|Sh]; [specialize (Sh [] p1 (path_nil _ _))|specialize (Sh [] p2 (path_nil _ _))]; cbn in Sh; lia.
  - rewrite node_eq_S. destruct (negb (Bool.eqb _ _)); [discriminate|]. destruct (negb (Nat.eqb _ _)); [discriminate|].
    assert (X : forall es, (forall c q, In (c, q) es -> In (c, q) (nedges n1)) -> eq_each fuel h n2 es <> OOF).
    { induction es as [|[c q] es IHe]; intros Sub; cbn [eq_each]; [discriminate|]. unfold transition. destruct (edge_get (nedges n2) c) as [q2|] eqn:E; [|rewrite N.eqb_refl; discriminate].
      apply edge_get_In in E. assert (I : In (c, q) (nedges n1)) by (apply Sub; now left).
      pose proof (solid_step _ _ _ _ _ S1 G1 I) as T1. pose proof (solid_step _ _ _ _ _ S2 G2 E) as T2.
      destruct (T1 [] q (path_nil _ _)) as (N1 & m1 & H1 & _). destruct (T2 [] q2 (path_nil _ _)) as (N2 & m2 & H2 & _).
      rewrite (proj2 (N.eqb_neq _ _) N2), (read_ok _ _ _ N1 H1), (read_ok _ _ _ N2 H2). cbn [rbind].
      assert (Sh' : short h q fuel \/ short h q2 fuel) by (destruct Sh as [Sh|Sh]; [left|right]; eapply short_step; eauto).
      specialize (IH h q q2 m1 m2 T1 T2 H1 H2 Sh'). destruct (node_eq fuel h m1 m2) as [e| |]; cbn [rbind]; [|discriminate|contradiction]. destruct e; [|discriminate]. apply IHe. intros c' q' I'. apply Sub. now right. }
    apply X. auto.
Qed.

Lemma rounds_step : forall h p n, solid h p -> hget h p = Some n -> rounds h p -> exists c q, In (c, q) (nedges n) /\ rounds h q.
Proof.
  intros h p n S G (v & x & c & w & P & Q). destruct v as [|d v].
  - inversion P; subst. inversion Q as [|? m ? z ? ? Gm I Q']; subst. assert (m = n) by congruence. subst m. exists c, z. split; [exact I|].
    exists w, x, c, w. split; [exact Q'|exact Q].
  - inversion P as [|? m ? z ? ? Gm I P']; subst. assert (m = n) by congruence. subst m. exists d, z. split; [exact I|]. exists v, x, c, w. auto.
Qed.

Lemma eq_forever : forall fuel h p1 p2 n1 n2, solid h p1 -> solid h p2 -> hget h p1 = Some n1 -> hget h p2 = Some n2 -> same_strings h p1 h p2 -> rounds h p1 -> node_eq fuel h n1 n2 = OOF.
Proof.
  induction fuel as [|fuel IH]; intros h p1 p2 n1 n2 S1 S2 G1 G2 Sa Ro; [reflexivity|]. rewrite node_eq_S. apply (same_step _ _ _ _ _ _ S1 S2 G1 G2) in Sa. destruct Sa as (F & L & T).
  rewrite F, Bool.eqb_reflx. cbn [negb]. replace (length (nedges n1) =? length (nedges n2)) with true by (symmetry; apply Nat.eqb_eq; rewrite <- (map_length fst (nedges n1)), L, map_length; reflexivity). cbn [negb].
  assert (O2 : esorted (nedges n2)) by (destruct (S2 [] p2 (path_nil _ _)) as (_ & m & G & So); congruence).
  destruct (rounds_step _ _ _ S1 G1 Ro) as (c & q & I & Rq).
  assert (X : forall es, (forall c q, In (c, q) es -> In (c, q) (nedges n1)) -> In (c, q) es -> eq_each fuel h n2 es = OOF); [|apply X; auto].
  induction es as [|[d q1] es IHe]; intros Sub J; [destruct J|]. cbn [eq_each].
  assert (I1 : In (d, q1) (nedges n1)) by (apply Sub; now left). assert (I2 : In d (map fst (nedges n2))) by (rewrite <- L; apply in_map_iff; exists (d, q1); auto). apply in_labels in I2; [|exact O2]. destruct I2 as (q2 & E2).
  unfold transition. rewrite E2. apply edge_get_In in E2.
  pose proof (solid_step _ _ _ _ _ S1 G1 I1) as T1. pose proof (solid_step _ _ _ _ _ S2 G2 E2) as T2.
  destruct (T1 [] q1 (path_nil _ _)) as (N1 & m1 & H1 & _). destruct (T2 [] q2 (path_nil _ _)) as (N2 & m2 & H2 & _).
  rewrite (proj2 (N.eqb_neq _ _) N2), (read_ok _ _ _ N1 H1), (read_ok _ _ _ N2 H2). cbn [rbind]. pose proof (T d q1 q2 I1 E2) as St. destruct J as [J|J].
  - injection J as -> ->. rewrite (IH h q q2 m1 m2 T1 T2 H1 H2 St Rq). reflexivity.
  - pose proof (eq_sound fuel h q1 q2 m1 m2 T1 T2 H1 H2) as Y. destruct (node_eq fuel h m1 m2) as [e| |]; cbn [rbind]; [|destruct Y|reflexivity].
    rewrite (proj2 Y St). apply IHe; [|exact J]. intros c' q' I'. apply Sub. now right.
Qed.
