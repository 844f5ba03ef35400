(** * MeaningProofs: what was read says what the message says. *)
From Coq Require Import Sorting.Sorted Sorting.Permutation.
From Verif Require Import Base Spec ModelDawg ModelSerial SpecDawg SpecSerial SpecAlike SpecSame SpecMeaning TreeProofs HeapProofs SerialProofs FormatProofs.

Lemma alike_trans : forall h1 d1 h2 d2 h3 d3, alike h1 d1 h2 d2 -> alike h2 d2 h3 d3 -> alike h1 d1 h3 d3.
Proof.
  intros h1 d1 h2 d2 h3 d3 A B. constructor.
  - rewrite (al_size _ _ _ _ A). apply B.
  - intros. rewrite (al_contains _ _ _ _ A). apply B.
  - intros. rewrite (al_iterate _ _ _ _ A). apply B.
  - intros. rewrite (al_hash _ _ _ _ A). apply B.
  - intros. rewrite (al_query _ _ _ _ A). apply B.
Qed.

(** The nodes of the message are in memory, perhaps among others. *)
Record present (h : heap) (m : message) (f : N -> ptr) : Prop := {
  pr_null : forall i, In i (m_nodes m) -> f i <> null;
  pr_inj : forall i j, In i (m_nodes m) -> In j (m_nodes m) -> f i = f j -> i = j;
  pr_node : forall i, In i (m_nodes m) -> exists n, hget h (f i) = Some n /\ nfin n = set_mem i (m_finals m) /\ esorted (nedges n) /\
    forall c q, edge_get (nedges n) c = Some q <->
      exists e, In e (m_edges m) /\ em_source e = i /\ label_of_msg (em_label e) = c /\ f (em_target e) = q;
}.

Lemma laid_present : forall h0 h m f, laid_out h0 h (m_nodes m) (m_finals m) f (m_edges m) -> present h m f.
Proof.
  intros h0 h m f L. constructor.
  - intros i I. apply (lo_fresh _ _ _ _ _ _ L i I).
  - apply L.
  - apply L.
Qed.

Lemma present_kept : forall h h' m f, present h m f -> (forall p, allocated h p -> hget h' p = hget h p) -> present h' m f.
Proof.
  intros h h' m f [P1 P2 P3] K. constructor; auto. intros i I. destruct (P3 i I) as (n & G & X). exists n. split; [|exact X].
  rewrite K; [exact G|]. unfold allocated. congruence.
Qed.

Section Present.
  Variables (h : heap) (m : message) (f : N -> ptr).
  Hypotheses (Wf : well_formed m) (P : present h m f).

  Lemma leads_in : forall i w j, leads (m_edges m) i w j -> In i (m_nodes m) -> In j (m_nodes m).
  Proof. intros i w j L. induction L as [i|e w j Ie L IH]; intros I; auto. apply IH. apply (wf_target _ Wf); auto. Qed.

  Lemma present_path : forall w i q, In i (m_nodes m) -> (path h (f i) w q <-> exists j, leads (m_edges m) i w j /\ q = f j).
  Proof.
    induction w as [|c w IH]; intros i q I; split.
    - intros X. inversion X; subst. exists i. split; [constructor|reflexivity].
    - intros (j & L & ->). inversion L; subst. constructor.
    - intros X. inversion X as [|? n ? z ? ? G Ie X']; subst. destruct (pr_node _ _ _ P i I) as (n' & G' & _ & So & Ed).
      assert (n' = n) by congruence. subst n'. apply (edge_In_get _ _ _ _ So) in Ie. apply Ed in Ie.
      destruct Ie as (e & Ie & Es & El & Et). subst z. apply IH in X'; [|apply (wf_target _ Wf); auto].
      destruct X' as (j & L & ->). exists j. split; [|reflexivity]. rewrite <- Es, <- El. constructor; auto.
    - intros (j & L & ->). apply leads_inv in L. destruct L as (e & Ie & Es & El & L).
      destruct (pr_node _ _ _ P i I) as (n & G & _ & So & Ed). apply path_cons with (n := n) (q := f (em_target e)); auto.
      + apply edge_get_In. apply Ed. eauto.
      + apply IH; [apply (wf_target _ Wf); auto|]. eauto.
  Qed.

  Lemma present_sound : forall i, In i (m_nodes m) -> sound h (f i).
  Proof.
    intros i I w q X. apply present_path in X; auto. destruct X as (j & L & ->). pose proof (leads_in _ _ _ L I) as J.
    split; [apply P; auto|]. destruct (pr_node _ _ _ P j J) as (n & G & _ & So & _). exists n. split; auto.
  Qed.

  Lemma present_spells : forall w, accepts_from h (f (m_root m)) w <-> spells m w.
  Proof.
    intros w. pose proof (wf_root _ Wf) as R. split.
    - intros (q & n & X & G & F). apply present_path in X; auto. destruct X as (j & L & ->). exists j. split; auto.
      destruct (pr_node _ _ _ P j (leads_in _ _ _ L R)) as (n' & G' & F' & _). assert (n' = n) by congruence. subst n'.
      rewrite F in F'. symmetry in F'. unfold set_mem in F'. apply existsb_exists in F'. destruct F' as (x & Ix & Ex). apply N.eqb_eq in Ex. now subst x.
    - intros (j & L & F). destruct (pr_node _ _ _ P j (leads_in _ _ _ L R)) as (n & G & Fn & _). exists (f j), n.
      split; [apply present_path; eauto|]. split; auto. rewrite Fn. unfold set_mem. apply existsb_exists. exists j. split; auto. apply N.eqb_refl.
  Qed.

  Lemma present_goes : forall w, (exists q, path h (f (m_root m)) w q) <-> goes_on m w.
  Proof.
    intros w. pose proof (wf_root _ Wf) as R. split.
    - intros (q & X). apply present_path in X; auto. destruct X as (j & L & _). now exists j.
    - intros (j & L). exists (f j). apply present_path; eauto.
  Qed.

  Lemma present_rounds : rounds h (f (m_root m)) -> SpecMeaning.goes_round m.
  Proof.
    intros (v & q & c & w & X & Y). pose proof (wf_root _ Wf) as R. apply present_path in X; auto. destruct X as (j & L & ->).
    pose proof (leads_in _ _ _ L R) as J. apply present_path in Y; auto. destruct Y as (k & L' & E).
    apply (pr_inj _ _ _ P) in E; auto; [|exact (leads_in _ _ _ L' J)]. subst k. now exists v, j, c, w.
  Qed.
End Present.

Lemma same_meaning : forall h m f h' m' f', well_formed m -> well_formed m' -> present h m f -> present h' m' f' ->
  ((forall w, (spells m w <-> spells m' w) /\ (goes_on m w <-> goes_on m' w)) <-> same_strings h (f (m_root m)) h' (f' (m_root m'))).
Proof.
  intros h m f h' m' f' Wf Wf' P P'. split; intros S w; specialize (S w).
  - rewrite (present_spells _ _ _ Wf P), (present_goes _ _ _ Wf P), (present_spells _ _ _ Wf' P'), (present_goes _ _ _ Wf' P'). exact S.
  - rewrite (present_spells _ _ _ Wf P), (present_goes _ _ _ Wf P), (present_spells _ _ _ Wf' P'), (present_goes _ _ _ Wf' P') in S. exact S.
Qed.

(** ** Renaming *)
Lemma label_same : forall a b, (a mod 256 = b mod 256)%N -> label_of_msg a = label_of_msg b.
Proof. intros a b E. unfold label_of_msg. now rewrite E. Qed.

Lemma renames_leads : forall g m m', well_formed m -> renames g m m' -> forall w i j', In i (m_nodes m) ->
  (leads (m_edges m') (g i) w j' <-> exists j, leads (m_edges m) i w j /\ j' = g j).
Proof.
  intros g m m' Wf R. induction w as [|c w IH]; intros i j' I; split.
  - intros L. inversion L; subst. exists i. split; [constructor|reflexivity].
  - intros (j & L & ->). inversion L; subst. constructor.
  - intros L. apply leads_inv in L. destruct L as (e' & Ie' & Es & El & L).
    destruct (rn_back _ _ _ R e' Ie') as (e & Ie & (S1 & S2 & S3)). rewrite S3 in L. apply IH in L; [|apply (wf_target _ Wf); auto].
    destruct L as (j & L & ->). exists j. split; auto.
    assert (E : em_source e = i). { apply (rn_inj _ _ _ R); auto; [apply (wf_source _ Wf); auto|congruence]. }
    rewrite <- E, <- El, (label_same _ _ S2). constructor; auto.
  - intros (j & L & ->). apply leads_inv in L. destruct L as (e & Ie & Es & El & L).
    destruct (rn_there _ _ _ R e Ie) as (e' & Ie' & (S1 & S2 & S3)). rewrite <- El, <- (label_same _ _ S2), <- Es, <- S1.
    constructor; auto. rewrite S3. apply IH; [apply (wf_target _ Wf); auto|]. eauto.
Qed.

Lemma renames_means : forall g m m', well_formed m -> renames g m m' -> means_same m m'.
Proof.
  intros g m m' Wf R. pose proof (wf_root _ Wf) as Ir. split; [symmetry; apply R|]. intros w. unfold spells, goes_on. rewrite (rn_root _ _ _ R).
  split; split.
  - intros (j & L & F). exists (g j). split; [apply (renames_leads g m m' Wf R); eauto|]. apply (rn_finals _ _ _ R); auto. eapply leads_in; eauto.
  - intros (j' & L & F). apply (renames_leads g m m' Wf R) in L; auto. destruct L as (j & L & ->). exists j. split; auto.
    apply (rn_finals _ _ _ R) in F; auto. eapply leads_in; eauto.
  - intros (j & L). exists (g j). apply (renames_leads g m m' Wf R); eauto.
  - intros (j' & L). apply (renames_leads g m m' Wf R) in L; auto. destruct L as (j & L & _). now exists j.
Qed.

Lemma label_unsigned : forall c, label_of_msg (uchar c) = c.
Proof. intros c. unfold label_of_msg, uchar. destruct c as [[] [] [] [] [] [] [] []]; reflexivity. Qed.

Lemma NoDup_map_in : forall (A B : Type) (k : A -> B) l, (forall x y, In x l -> In y l -> k x = k y -> x = y) -> NoDup l -> NoDup (map k l).
Proof.
  intros A B k. induction l as [|x l IH]; intros Inj N; cbn; [constructor|]. inversion N as [|? ? Nx N']; subst. constructor.
  - intros X. apply in_map_iff in X. destruct X as (y & E & I). apply Nx. rewrite (Inj x y); cbn; auto.
  - apply IH; auto. intros y z Iy Iz. apply Inj; cbn; auto.
Qed.

Lemma elsewhere_well_formed : forall g m m', well_formed m -> from_elsewhere g m m' -> well_formed m'.
Proof.
  intros g m m' Wf [F1 F2 F3 F4 F5 F6].
  assert (Ed : forall e', In e' (m_edges m') -> exists e, In e (m_edges m) /\ e' = unsigned_edge g e).
  { intros e' I. apply (Permutation_in _ F3) in I. apply in_map_iff in I. destruct I as (e & <- & I). eauto. }
  assert (No : forall i, In i (m_nodes m) -> In (g i) (m_nodes m')).
  { intros i I. apply (Permutation_in _ (Permutation_sym F1)). now apply in_map. }
  constructor.
  - intros e' I. destruct (Ed e' I) as (e & Ie & ->). apply No. apply (wf_source _ Wf); auto.
  - intros e' I. destruct (Ed e' I) as (e & Ie & ->). apply No. apply (wf_target _ Wf); auto.
  - eapply Permutation_NoDup; [apply Permutation_map, Permutation_sym, F3|]. rewrite map_map.
    assert (N : NoDup (m_edges m)) by (eapply NoDup_map_inv; apply (wf_keys _ Wf)).
    apply NoDup_map_in; auto. intros x y Ix Iy E. injection E as E1 E2. rewrite !label_unsigned in E2.
    assert (Es : em_source x = em_source y) by (apply F6; auto; apply (wf_source _ Wf); auto).
    exact (edge_unique (wf_keys _ Wf) Ix Iy Es E2).
  - rewrite F4. apply No, Wf.
Qed.

Lemma elsewhere_renames : forall g m m', well_formed m -> (forall i, In i (m_finals m) -> In i (m_nodes m)) -> from_elsewhere g m m' -> renames g m m'.
Proof.
  intros g m m' Wf Fi [F1 F2 F3 F4 F5 F6].
  assert (Lb : forall e, (em_label (unsigned_edge g e) mod 256 = em_label e mod 256)%N).
  { intros e. unfold unsigned_edge, label_of_msg, uchar. cbn [em_label]. rewrite N_ascii_embedding by (apply N.mod_lt; discriminate). apply N.mod_mod. discriminate. }
  constructor; auto.
  - intros i I. split; intros X.
    + apply (Permutation_in _ F2) in X. apply in_map_iff in X. destruct X as (j & E & J). apply F6 in E; auto. now subst j.
    + apply (Permutation_in _ (Permutation_sym F2)). now apply in_map.
  - intros e I. exists (unsigned_edge g e). split; [|repeat split; apply Lb]. apply (Permutation_in _ (Permutation_sym F3)). now apply in_map.
  - intros e' I. apply (Permutation_in _ F3) in I. apply in_map_iff in I. destruct I as (e & <- & I). exists e. split; auto. repeat split. apply Lb.
Qed.
