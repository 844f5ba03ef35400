(** * StreamProofs: several dictionaries in one stream. *)
From Coq Require Import Sorting.Sorted Sorting.Permutation.
From Verif Require Import Base Spec ModelTransducer ModelDawg ModelSerial ModelWire ModelQuery SpecDawg SpecSerial SpecQuery SpecWire SpecForeign SpecStream
  TreeProofs HeapProofs IterProofs BuildProofs2 DawgProofs SerialProofs QueryProofs QueryFacts WireProofs FileProofs ForeignProofs
  PropsDawg PropsWire.
Local Open Scope nat_scope.

(** ** What the bytes of several messages are read as *)
Definition joined (m m' : message) : message :=
  Message (m_nodes m ++ m_nodes m') (m_finals m ++ m_finals m') (m_edges m ++ m_edges m')
    (if (m_root m' =? 0)%N then m_root m else m_root m') (if (m_size m' =? 0)%N then m_size m else m_size m').

Lemma apply_message m m' : apply_all (message_upds m') m = joined m m'.
Proof.
  unfold message_upds, front_upds. rewrite !apply_all_app, apply_packed_nodes, apply_packed_finals, apply_edges.
  unfold uint_upds, joined. destruct (m_root m' =? 0)%N, (m_size m' =? 0)%N; reflexivity.
Qed.

Lemma decode_all ms : Forall in_range ms -> (N.of_nat (length (flat_map encode ms)) <= INT_MAX)%N ->
  decode (flat_map encode ms) = Ok (Some (fold_left joined ms empty_message)).
Proof.
  intros R L. unfold decode. destruct (N.leb_spec (N.of_nat (length (flat_map encode ms))) INT_MAX); [|lia].
  change (Message [] [] [] 0 0) with empty_message.
  assert (X : flat_map encode ms = concat (flat_map message_segs ms)).
  { clear. induction ms as [|m ms IH]; auto. cbn [flat_map]. rewrite concat_app, message_segs_concat, IH. auto. }
  assert (F : Forall2 (segment message_field) (flat_map message_segs ms) (flat_map message_upds ms)).
  { clear X H. induction R as [|m ms Rm _ IH]; cbn [flat_map] in *; [constructor|]. rewrite app_length in L.
    apply Forall2_app; [apply message_segments; auto; unfold not_too_long; lia|apply IH; lia]. }
  rewrite X in *. rewrite fields_all with (upds := flat_map message_upds ms); auto. f_equal. f_equal.
  generalize empty_message as x. clear. induction ms as [|m ms IH]; intros x; cbn [flat_map fold_left]; auto.
  rewrite apply_all_app, apply_message. apply IH.
Qed.

Lemma joined_nodes ms : forall m, m_nodes (fold_left joined ms m) = m_nodes m ++ flat_map m_nodes ms.
Proof. induction ms as [|m' ms IH]; intros m; cbn [fold_left flat_map]; [rewrite app_nil_r; auto|]. rewrite IH. cbn. symmetry. apply app_assoc. Qed.
Lemma joined_finals ms : forall m, m_finals (fold_left joined ms m) = m_finals m ++ flat_map m_finals ms.
Proof. induction ms as [|m' ms IH]; intros m; cbn [fold_left flat_map]; [rewrite app_nil_r; auto|]. rewrite IH. cbn. symmetry. apply app_assoc. Qed.
Lemma joined_edges ms : forall m, m_edges (fold_left joined ms m) = m_edges m ++ flat_map m_edges ms.
Proof. induction ms as [|m' ms IH]; intros m; cbn [fold_left flat_map]; [rewrite app_nil_r; auto|]. rewrite IH. cbn. symmetry. apply app_assoc. Qed.
Lemma joined_size ms : forall m, m_size (fold_left joined ms m) = fold_left (fun last n => if (n =? 0)%N then last else n) (map m_size ms) (m_size m).
Proof. induction ms as [|m' ms IH]; intros m; cbn [fold_left map]; auto. rewrite IH. reflexivity. Qed.

(** ** What is written *)
Fixpoint save_messages (size : N) (split : list byte -> list (list byte)) (f : ofile) (ms : list message) : list bool * ofile :=
  match ms with
  | [] => ([], f)
  | m :: ms' =>
      let (ok, f1) := serialize_to size split f m in
      let (oks, f2) := save_messages size split f1 ms' in (ok :: oks, f2)
  end.

Lemma save_all_messages size split h ds ms : Forall2 (fun d m => runs_to (fun fuel => to_protobuf fuel h d) m) ds ms ->
  exists enough, forall fuel, enough <= fuel -> forall f, save_all fuel size split f h ds = Ok (save_messages size split f ms).
Proof.
  intros F. induction F as [|d m ds ms (e1 & R) _ (e2 & IH)].
  - exists 0. auto.
  - exists (e1 + e2). intros fuel Le f. cbn [save_all save_messages]. unfold serialize_stream. rewrite R by lia. cbn [rbind].
    destruct (serialize_to size split f m) as [ok f1]. rewrite IH by lia.
    destruct (save_messages size split f1 ms) as [oks f2]. reflexivity.
Qed.

Lemma messages_sound size split room ms : splitter split -> forall f bs results f2, sound room bs f ->
  save_messages size split f ms = (results, f2) -> Forall (eq true) results ->
  Forall not_too_long ms /\ sound room (bs ++ flat_map encode ms) f2.
Proof.
  intros Sp. induction ms as [|m ms IH]; intros f bs results f2 S E T; cbn [save_messages flat_map] in *.
  - injection E as <- <-. rewrite app_nil_r. auto.
  - destruct (serialize_to size split f m) as [ok f1] eqn:Es. destruct (save_messages size split f1 ms) as [oks f3] eqn:Em.
    injection E as <- <-. inversion T as [|? ? <- T']; subst. unfold serialize_to in Es.
    destruct (N.leb_spec (N.of_nat (length (encode m))) INT_MAX) as [L|L]; [|discriminate]. injection Es as _ <-.
    pose proof (sound_pieces size room (split (encode m)) bs f S) as S1. rewrite Sp in S1.
    destruct (IH _ _ _ _ S1 Em T') as (Ln & S2). split; [constructor; auto|]. rewrite app_assoc. auto.
Qed.

(** A file that has less than the room there was is complete. *)
Lemma contents_all room bs f : sound room bs f -> (N.of_nat (length (contents f)) < room)%N -> contents f = bs.
Proof.
  intros S L. unfold contents in *. rewrite (closed _ _ _ S) in *. apply firstn_all2. rewrite firstn_length in L. lia.
Qed.

Lemma saved_bytes size split room h ds ms results f : splitter split ->
  Forall2 (fun d m => runs_to (fun fuel => to_protobuf fuel h d) m) ds ms ->
  runs_to (fun fuel => save_all fuel size split (opened room) h ds) (results, f) -> Forall (eq true) results ->
  (N.of_nat (length (contents f)) < room)%N -> contents f = flat_map encode ms.
Proof.
  intros Sp F (e1 & R) T L. destruct (save_all_messages size split h ds ms F) as (e2 & E).
  specialize (R (e1 + e2) ltac:(lia)). cbv beta in R. rewrite E in R by lia. injection R as R.
  destruct (messages_sound size split room ms Sp (opened room) [] results f (sound_start room) R T) as (_ & S).
  eapply contents_all; eauto.
Qed.

(** ** What is read *)
Definition edge_key (e : edge_msg) : N * char := (em_source e, label_of_msg (em_label e)).

Lemma leaving_spec i c es : match leaving i c es with
  | Some e => In e es /\ edge_key e = (i, c)
  | None => forall e, In e es -> edge_key e <> (i, c)
  end.
Proof.
  unfold leaving. destruct (find _ es) as [e|] eqn:E.
  - apply find_some in E. destruct E as [I E]. split; auto. apply andb_true_iff in E. destruct E as [E1 E2].
    apply N.eqb_eq in E1. apply TreeProofs.ceqb_true in E2. unfold edge_key. congruence.
  - intros e I X. pose proof (find_none _ _ E e I) as Y. cbv beta in Y. injection X as X1 X2. rewrite X1, X2, N.eqb_refl in Y.
    cbn in Y. rewrite TreeProofs.ceqb_refl in Y. discriminate.
Qed.

Lemma key_unique es e e' : NoDup (map edge_key es) -> In e es -> In e' es -> edge_key e = edge_key e' -> e = e'.
Proof.
  induction es as [|x es IH]; cbn; [intros _ []|]. intros Nd I I' E. inversion Nd as [|? ? Ni Nd']; subst.
  destruct I as [->|I], I' as [->|I']; auto.
  - exfalso. apply Ni. rewrite E. apply in_map, I'.
  - exfalso. apply Ni. rewrite <- E. apply in_map, I.
Qed.

Lemma leaving_iff i c es e : NoDup (map edge_key es) -> leaving i c es = Some e <-> In e es /\ edge_key e = (i, c).
Proof.
  intros Nd. pose proof (leaving_spec i c es) as X. split.
  - intros E. rewrite E in X. auto.
  - intros [I E]. destruct (leaving i c es) as [e'|]; [|exfalso; eapply X; eauto]. destruct X as [I' E']. f_equal.
    eapply key_unique; eauto. congruence.
Qed.

Lemma replay_distinct nodes todo : forall done, NoDup (map edge_key (done ++ todo)) -> (forall e, In e todo -> In (em_source e) nodes) ->
  replay nodes [] done todo = Some ([], rev todo ++ done).
Proof.
  induction todo as [|e todo IH]; intros done Nd I; cbn [replay rev app]; auto.
  assert (Me : member (em_source e) nodes = true) by (apply member_In, I; left; auto). rewrite Me. cbn [negb orb member existsb].
  pose proof (leaving_spec (em_source e) (label_of_msg (em_label e)) done) as X.
  pose proof (Permutation_NoDup (Permutation_sym (Permutation_map edge_key (Permutation_middle done todo e))) Nd) as Nd2. cbn [map] in Nd2.
  destruct (leaving (em_source e) (label_of_msg (em_label e)) done) as [e'|].
  - exfalso. destruct X as [I' E']. inversion Nd2 as [|? ? Ni _]; subst. apply Ni.
    change (edge_key e) with (em_source e, label_of_msg (em_label e)). rewrite <- E'. apply in_map, in_or_app. auto.
  - rewrite IH; [|exact Nd2|intros; apply I; right; auto]. rewrite <- app_assoc. auto.
Qed.

(** *** The nodes of one dictionary, somewhere among others *)
Section Among.
  Variables (h : heap) (d : dawg) (m : message) (t : tree) (nodes : list N) (es : list edge_msg).
  Hypothesis De : describes h d m.
  Hypothesis U : unf h (d_root d) t.
  Hypothesis Nd : NoDup (map edge_key es).
  Hypothesis Nodes : incl (m_nodes m) nodes.
  Hypothesis Edges : incl (m_edges m) es.
  Hypothesis Own : forall e, In e es -> In (em_source e) (m_nodes m) -> In e (m_edges m).

  Lemma walks_path : forall w p j, reach h (d_root d) p -> walks nodes [] es p w j <-> path h p w j.
  Proof.
    induction w as [|c w IH]; intros p j Rp.
    - split; intros X; inversion X; subst; constructor.
    - split; intros X.
      + inversion X as [|? ? e ? ? _ _ L Wk]; subst. apply leaving_iff in L; auto. destruct L as [I K]. injection K as K1 K2.
        assert (Ie : In e (m_edges m)) by (apply Own; auto; rewrite K1; apply (ds_nodes _ _ _ De), Rp).
        apply (ds_edges _ _ _ De) in Ie. destruct Ie as (x & c' & q & -> & Rx & n & G & Iq). cbn [em_source em_label em_target] in *.
        subst x. rewrite label_round in K2. subst c'. econstructor; eauto. apply IH; auto. eapply reach_step; eauto.
      + inversion X as [|? n ? q ? ? G Iq Pa]; subst.
        apply (walks_cons _ _ _ p c (EdgeMsg p (label_to_msg c) q)).
        * apply Nodes, (ds_nodes _ _ _ De), Rp.
        * intros [].
        * apply leaving_iff; auto. split; [|unfold edge_key; cbn; rewrite label_round; auto].
          apply Edges, (ds_edges _ _ _ De). exists p, c, q. split; auto. split; eauto.
        * apply IH; auto. eapply reach_step; eauto.
  Qed.

  Lemma path_height : forall w p j t', unf h p t' -> path h p w j -> length w < height t'.
  Proof.
    clear. induction w as [|c w IH]; intros p j t' U' Pa; [apply height_pos|].
    inversion Pa as [|? n ? q ? ? G I Pa']; subst. inversion U'; subst. rewrite G in H0. injection H0 as <-.
    destruct (unfs_In _ _ _ _ _ H2 I) as (t2 & I2 & U2). apply (height_edge _ (nfin n)) in I2. specialize (IH _ _ _ U2 Pa'). cbn [length]. lia.
  Qed.
End Among.

(** *** Messages of dictionaries without common nodes *)
Lemma flat_map_snoc {A B} (f : A -> list B) l x : flat_map f (l ++ [x]) = flat_map f l ++ f x.
Proof. rewrite flat_map_app. cbn. rewrite app_nil_r. auto. Qed.

Definition node_apart (m m' : message) : Prop := forall i, ~ (In i (m_nodes m) /\ In i (m_nodes m')).

Lemma NoDup_app_apart {A} (l k : list A) : NoDup l -> NoDup k -> (forall x, In x l -> ~ In x k) -> NoDup (l ++ k).
Proof.
  intros N1 N2. induction N1 as [|x l Nx _ IH]; intros D; auto. cbn. constructor.
  - rewrite in_app_iff. intros [I|I]; auto. apply (D x); auto. left. auto.
  - apply IH. intros y I. apply D. right. auto.
Qed.

Lemma keys_apart ms : Forall well_formed ms -> ForallOrdPairs node_apart ms -> NoDup (map edge_key (flat_map m_edges ms)).
Proof.
  intros W F. induction F as [|m ms Fm _ IH]; [constructor|]. inversion W as [|? ? Wm W']; subst. specialize (IH W').
  cbn [flat_map]. rewrite map_app. apply NoDup_app_apart; auto.
  - exact (wf_keys _ Wm).
  - intros k I J. apply in_map_iff in I, J. destruct I as (e & <- & I), J as (e' & Ek & J). apply in_flat_map in J.
    destruct J as (m' & Im & J). rewrite Forall_forall in Fm, W'. apply (Fm m' Im (em_source e)). split; [apply (wf_source _ Wm e I)|].
    injection Ek as <- _. apply (wf_source _ (W' m' Im) e' J).
Qed.

Lemma sources_listed ms : Forall well_formed ms -> forall e, In e (flat_map m_edges ms) -> In (em_source e) (flat_map m_nodes ms).
Proof.
  intros W e I. apply in_flat_map in I. destruct I as (m & Im & I). rewrite Forall_forall in W. apply in_flat_map. exists m. split; auto.
  apply (wf_source _ (W m Im) e I).
Qed.

Lemma pairs_snoc {A} (R : A -> A -> Prop) l x : ForallOrdPairs R (l ++ [x]) -> forall y, In y l -> R y x.
Proof.
  induction l as [|a l IH]; intros F y I; [destruct I|]. inversion F as [|? ? Fa F']; subst. destruct I as [->|I]; auto.
  rewrite Forall_forall in Fa. apply Fa, in_or_app. right. left. auto.
Qed.

(** *** The same edges twice *)
Lemma replay_app nodes a : forall dead es b, replay nodes dead es (a ++ b) =
  match replay nodes dead es a with Some (dead', es') => replay nodes dead' es' b | None => None end.
Proof.
  induction a as [|e a IH]; intros dead es b; auto. cbn [app replay].
  destruct (negb (member (em_source e) nodes) || member (em_source e) dead); auto.
  destruct (leaving (em_source e) (label_of_msg (em_label e)) es) as [old|]; auto. destruct (negb (member (em_target old) nodes)); auto.
  destruct (member (em_target old) dead || (em_target old =? em_source e)%N); auto.
Qed.

Lemma replay_again nodes es : NoDup (map edge_key es) -> (forall e, In e es -> In (em_target e) nodes) ->
  forall todo before dead, incl todo es -> incl es before -> incl before es -> NoDup (map edge_key todo) ->
  match replay nodes dead before todo with
  | None => True
  | Some (dead', es') => incl dead dead' /\ incl es es' /\ incl es' es /\ forall e, In e todo -> In (em_target e) dead'
  end.
Proof.
  intros Nd Ta. induction todo as [|e todo IH]; intros before dead It Ib Bi Nt; cbn [replay].
  { repeat split; auto; [intros x; auto|intros e []]. }
  destruct (negb (member (em_source e) nodes) || member (em_source e) dead); auto.
  pose proof (leaving_spec (em_source e) (label_of_msg (em_label e)) before) as X.
  assert (Ie : In e es) by (apply It; left; auto).
  destruct (leaving (em_source e) (label_of_msg (em_label e)) before) as [old|]; [|exfalso; apply (X e); auto].
  destruct X as [Io Ko]. assert (old = e) by (apply (key_unique es); auto). subst old.
  rewrite (proj2 (member_In _ _) (Ta e Ie)). cbn [negb]. destruct (member (em_target e) dead || (em_target e =? em_source e)%N); auto.
  inversion Nt as [|? ? _ Nt']; subst.
  specialize (IH (e :: before) (em_target e :: dead)).
  destruct (replay nodes (em_target e :: dead) (e :: before) todo) as [[dead' es']|]; auto.
  destruct IH as (I1 & I2 & I3 & I4); auto.
  - intros x I. apply It. right. auto.
  - intros x I. right. auto.
  - intros x [<-|I]; auto.
  - split; [intros x I; apply I1; right; auto|]. split; auto. split; auto. intros e' [<-|I]; auto. apply I1. left. auto.
Qed.
