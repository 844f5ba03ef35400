(** * SerialThrowProofs: saving and loading when memory runs out. *)
From Verif Require Import Base ModelDawg ModelSerial ModelWire ModelThrow ModelBuildThrow ModelSerialThrow.
From Verif Require Import SpecDawg SpecSerial TreeProofs HeapProofs SerialProofs.
Local Open Scope nat_scope.

(** ** Budgets *)
Lemma spend_many_add a c b : spend_many (a + c) b = match spend_many a b with Some b1 => spend_many c b1 | None => None end.
Proof. revert b. induction a as [|a IH]; intros b; cbn; [reflexivity|]. destruct (spend b); auto. Qed.

Lemma spend_zero b : spend b = None -> b = Some 0.
Proof. destruct b as [[|k]|]; cbn; congruence. Qed.

Lemma spend_many_finite n k : spend_many n (Some k) = if n <=? k then Some (Some (k - n)) else None.
Proof.
  revert k. induction n as [|n IH]; intros k; cbn [spend_many]; [now rewrite Nat.sub_0_r|].
  destruct k as [|k]; cbn [spend]; [reflexivity|]. rewrite IH. reflexivity.
Qed.

(** A computation that needs [n] allocations and gives [r]. *)
Definition charge {A} (n : nat) (b : budget) (r : A) : res (budget * option A) :=
  Ok (match spend_many n b with Some b1 => (b1, Some r) | None => (Some 0, None) end).

(** ** Saving *)
Definition try_nodes_each (fuel : nat) (h : heap) :=
  fix each (es : list (char * ptr)) (b : budget) (ids finals : list N)
     : res (budget * option (list N * list N)) :=
     match es with
     | [] => Ok (b, Some (ids, finals))
     | (_, target) :: es' =>
         do (b1, r) <- try_collect_nodes fuel b h target ids finals;
         match r with
         | None => Ok (b1, None)
         | Some (ids1, finals1) => each es' b1 ids1 finals1
         end
     end.

Lemma try_collect_nodes_S : forall fuel b h p ids finals, try_collect_nodes (S fuel) b h p ids finals =
  if set_mem p ids then Ok (b, Some (ids, finals))
  else
    match spend b with
    | None => Ok (b, None)
    | Some b1 =>
        do n <- read h p;
        match (if nfin n then spend b1 else Some b1) with
        | None => Ok (b1, None)
        | Some b2 =>
            match spend b2 with
            | None => Ok (b2, None)
            | Some b3 => try_nodes_each fuel h (nedges n) b3 (id_insert p ids) (if nfin n then id_insert p finals else finals)
            end
        end
    end.
Proof. reflexivity. Qed.

Lemma collect_nodes_charge : forall fuel h p ids finals r, collect_nodes fuel h p ids finals = Ok r ->
  exists n, forall fuel' b, fuel <= fuel' -> try_collect_nodes fuel' b h p ids finals = charge n b r.
Proof.
  induction fuel as [|fuel IH]; intros h p ids finals r H; [discriminate|]. rewrite collect_nodes_S in H.
  destruct (set_mem p ids) eqn:M.
  { exists 0. intros [|fuel'] b Le; [lia|]. rewrite try_collect_nodes_S, M. injection H as <-. reflexivity. }
  destruct (read h p) as [n| |] eqn:Rd; try discriminate. cbn [rbind] in H.
  assert (K : forall es ids finals r, nodes_each fuel h es ids finals = Ok r ->
    exists k, forall fuel' b, fuel <= fuel' -> try_nodes_each fuel' h es b ids finals = charge k b r).
  { clear - IH. induction es as [|[c t] es IHe]; intros ids finals r H; cbn in H.
    - exists 0. intros fuel' b Le. injection H as <-. reflexivity.
    - destruct (collect_nodes fuel h t ids finals) as [[i1 f1]| |] eqn:E; try discriminate. cbn [rbind] in H.
      destruct (IH _ _ _ _ _ E) as (k1 & K1). destruct (IHe _ _ _ H) as (k2 & K2).
      exists (k1 + k2). intros fuel' b Le. cbn [try_nodes_each]. rewrite K1 by lia. unfold charge. cbn [rbind].
      rewrite spend_many_add. destruct (spend_many k1 b) as [b1|]; cbn; [rewrite K2 by lia; reflexivity|reflexivity]. }
  destruct (K _ _ _ _ H) as (k & Kk).
  exists (1 + ((if nfin n then 1 else 0) + (1 + k))). intros [|fuel'] b Le; [lia|]. rewrite try_collect_nodes_S, M, Rd. unfold charge.
  rewrite !spend_many_add. cbn [spend_many]. destruct (spend b) as [b1|] eqn:S1; [|now rewrite (spend_zero _ S1)].
  cbn [rbind]. rewrite !spend_many_add.
  destruct (nfin n); cbn [spend_many].
  - destruct (spend b1) as [b2|] eqn:S2; [|now rewrite (spend_zero _ S2)].
    destruct (spend b2) as [b3|] eqn:S3; [|cbn; now rewrite S3, (spend_zero _ S3)]. rewrite Kk by lia. unfold charge. cbn. now rewrite S3.
  - destruct (spend b1) as [b2|] eqn:S2; [|cbn; now rewrite S2, (spend_zero _ S2)]. rewrite Kk by lia. unfold charge. cbn. now rewrite S2.
Qed.

Definition try_edges_each (fuel : nat) (h : heap) (source : ptr) :=
  fix each (es : list (char * ptr)) (b : budget) (edges : edge_map) : res (budget * option edge_map) :=
   match es with
   | [] => Ok (b, Some edges)
   | (label, target) :: es' =>
       if edges_contains edges (source, label) then each es' b edges
       else
         match spend b with
         | None => Ok (b, None)
         | Some b1 =>
             do (b2, r) <- try_collect_edges fuel b1 h target (edges_insert edges (source, label) target);
             match r with
             | None => Ok (b2, None)
             | Some edges1 => each es' b2 edges1
             end
         end
   end.

Lemma try_collect_edges_S : forall fuel b h p edges, try_collect_edges (S fuel) b h p edges =
  match spend b with
  | None => Ok (b, None)
  | Some b1 => do n <- read h p; try_edges_each fuel h p (nedges n) b1 edges
  end.
Proof. reflexivity. Qed.

Lemma collect_edges_charge : forall fuel h p edges r, collect_edges fuel h p edges = Ok r ->
  exists n, forall fuel' b, fuel <= fuel' -> try_collect_edges fuel' b h p edges = charge n b r.
Proof.
  induction fuel as [|fuel IH]; intros h p edges r H; [discriminate|]. rewrite collect_edges_S in H.
  destruct (read h p) as [n| |] eqn:Rd; try discriminate. cbn [rbind] in H.
  assert (K : forall es edges r, edges_each fuel h p es edges = Ok r ->
    exists k, forall fuel' b, fuel <= fuel' -> try_edges_each fuel' h p es b edges = charge k b r).
  { clear - IH. induction es as [|[c t] es IHe]; intros edges r H; cbn in H.
    - exists 0. intros fuel' b Le. injection H as <-. reflexivity.
    - destruct (edges_contains edges (p, c)) eqn:C.
      { destruct (IHe _ _ H) as (k & K). exists k. intros fuel' b Le. cbn [try_edges_each]. rewrite C. apply K. exact Le. }
      destruct (collect_edges fuel h t (edges_insert edges (p, c) t)) as [e1| |] eqn:E; try discriminate. cbn [rbind] in H.
      destruct (IH _ _ _ _ E) as (k1 & K1). destruct (IHe _ _ H) as (k2 & K2).
      exists (1 + (k1 + k2)). intros fuel' b Le. cbn [try_edges_each]. rewrite C. unfold charge. cbn [Nat.add spend_many].
      destruct (spend b) as [b1|] eqn:S1; [|now rewrite (spend_zero _ S1)].
      rewrite K1 by lia. unfold charge. cbn [rbind]. rewrite spend_many_add.
      destruct (spend_many k1 b1) as [b2|]; cbn; [rewrite K2 by lia; reflexivity|reflexivity]. }
  destruct (K _ _ _ H) as (k & Kk).
  exists (1 + k). intros [|fuel'] b Le; [lia|]. rewrite try_collect_edges_S, Rd. unfold charge. cbn [Nat.add spend_many].
  destruct (spend b) as [b1|] eqn:S1; [|now rewrite (spend_zero _ S1)]. cbn [rbind]. apply Kk. lia.
Qed.

Lemma to_protobuf_charge : forall fuel h d m, to_protobuf fuel h d = Ok m ->
  exists n, forall fuel' b, fuel <= fuel' -> try_to_protobuf fuel' b h d =
    match spend_many (S n) b with
    | Some b1 => Ok (b1, true, Some m)
    | None => Ok (Some 0, match spend b with Some _ => true | None => false end, None)
    end.
Proof.
  intros fuel h d m H. unfold to_protobuf in H.
  destruct (collect_nodes fuel h (d_root d) [] []) as [[ids finals]| |] eqn:E1; try discriminate. cbn [rbind] in H.
  destruct (collect_edges fuel h (d_root d) []) as [edges| |] eqn:E2; try discriminate. cbn [rbind] in H.
  injection H as <-. destruct (collect_nodes_charge _ _ _ _ _ _ E1) as (n1 & K1).
  destruct (collect_edges_charge _ _ _ _ _ E2) as (n2 & K2).
  exists (n1 + ((length ids + length finals) + (n2 + length edges))). intros fuel' b Le. unfold try_to_protobuf. cbn [spend_many].
  destruct (spend b) as [b1|] eqn:S1; [|now rewrite (spend_zero _ S1)].
  rewrite K1 by lia. unfold charge. cbn [rbind]. rewrite (spend_many_add n1).
  destruct (spend_many n1 b1) as [b2|]; [|reflexivity]. rewrite (spend_many_add (length ids + length finals)).
  destruct (spend_many (length ids + length finals) b2) as [b3|]; [|reflexivity].
  rewrite K2 by lia. unfold charge. cbn [rbind]. rewrite spend_many_add. destruct (spend_many n2 b3) as [b4|]; [|reflexivity].
  destruct (spend_many (length edges) b4); reflexivity.
Qed.

(** ** Loading *)
(** [new] are the addresses of nodes that [h'] has and [h] has not. *)
Definition grown (h h' : heap) (new : list ptr) : Prop :=
  NoDup new /\ (forall p, In p new -> hget h p = None /\ hget h' p <> None) /\
  (forall p, ~ In p new -> hget h' p = hget h p).

Lemma grown_refl h : grown h h [].
Proof. split; [constructor|]. split; [intros p []|auto]. Qed.

Lemma grown_new h p n h' new : hget h p = None -> grown (hset h p n) h' new -> grown h h' (p :: new).
Proof.
  intros G (N & I & O).
  assert (Np : ~ In p new). { intros X. apply I in X. rewrite hget_hset_same in X. destruct X. discriminate. }
  split; [constructor; auto|]. split.
  - intros q [<-|X].
    + split; [exact G|]. rewrite (O p Np), hget_hset_same. discriminate.
    + destruct (I q X) as (A & B). split; [|exact B].
      rewrite hget_hset_other in A; [exact A|]. intros <-. rewrite hget_hset_same in A. discriminate.
  - intros q X. rewrite O by (intros Y; apply X; now right). apply hget_hset_other. intros ->. apply X. now left.
Qed.

Lemma make_nodes_charge alloc finals : allocator alloc -> forall ids h nodes h1 nodes1,
  make_nodes alloc h finals ids nodes = (h1, nodes1) -> NoDup (map fst nodes) ->
  exists new more, nodes1 = more ++ nodes /\ grown h h1 new /\ length new = length more /\ NoDup (map fst nodes1) /\
    (forall i, In i (map fst nodes1) <-> In i ids \/ In i (map fst nodes)) /\
    (forall b, spend_many (2 * length more) b <> None ->
       exists b1, spend_many (2 * length more) b = Some b1 /\ try_make_nodes alloc b h finals ids nodes = (b1, h1, Some nodes1)) /\
    (forall k, k < 2 * length more -> exists h' new', try_make_nodes alloc (Some k) h finals ids nodes = (Some 0, h', None) /\
       grown h h' new' /\ length new' = (k + 1) / 2).
Proof.
  intros A. induction ids as [|id ids IH]; intros h nodes h1 nodes1 E ND; cbn [make_nodes] in E.
  - injection E as <- <-. exists [], []. split; [reflexivity|]. split; [apply grown_refl|]. split; [reflexivity|]. split; [exact ND|].
    split; [intros i; cbn; tauto|]. split; [|cbn; lia]. intros b _. exists b. auto.
  - assert (Key : forall i, In i (map fst nodes) <-> find_node nodes i <> None).
    { clear. induction nodes as [|[j q] nodes IH]; intros i; cbn; [split; [tauto|congruence]|].
      destruct (N.eqb_spec i j); [subst; split; [discriminate|auto]|]. rewrite <- IH. intuition congruence. }
    destruct (find_node nodes id) as [p|] eqn:F.
    + destruct (IH _ _ _ _ E ND) as (new & more & -> & G & L & ND1 & Ks & Su & T).
      exists new, more. repeat (split; [assumption||reflexivity|]). split; [|split].
      * intros i. rewrite Ks. cbn. assert (In id (map fst nodes)) by (apply Key; congruence). intuition (subst; auto).
      * intros b Hb. cbn [try_make_nodes]. rewrite F. apply Su. exact Hb.
      * intros k Hk. cbn [try_make_nodes]. rewrite F. apply T. exact Hk.
    + cbn [new_node] in E. destruct (A h) as [Np Gp]. set (p := alloc h) in *.
      assert (ND' : NoDup (map fst ((id, p) :: nodes))).
      { cbn. constructor; auto. rewrite Key. congruence. }
      destruct (IH _ _ _ _ E ND') as (new & more & -> & G & L & ND1 & Ks & Su & T).
      exists (p :: new), (more ++ [(id, p)]). split; [now rewrite <- app_assoc|].
      split; [eapply grown_new; eauto|]. rewrite app_length. cbn [length]. split; [lia|]. split; [exact ND1|]. split.
      { intros i. rewrite Ks. cbn. intuition (subst; auto). }
      replace (2 * (length more + 1)) with (2 + 2 * length more) by lia. split.
      * intros b Hb. rewrite spend_many_add in *. cbn [try_make_nodes]. rewrite F. cbn [spend_many] in *.
        destruct (spend b) as [b1|]; [|congruence]. cbn [new_node]. fold p.
        destruct (spend b1) as [b2|]; [|congruence]. apply Su. exact Hb.
      * intros k Hk. cbn [try_make_nodes]. rewrite F. destruct k as [|[|k]]; cbn [spend new_node]; fold p.
        -- exists h, []. split; [reflexivity|]. split; [apply grown_refl|reflexivity].
        -- eexists _, [p]. split; [reflexivity|]. split; [|reflexivity]. eapply grown_new; [exact Gp|apply grown_refl].
        -- destruct (T k ltac:(lia)) as (h' & new' & E' & G' & L'). exists h', (p :: new'). split; [exact E'|].
           split; [eapply grown_new; eauto|]. cbn [length]. rewrite L'.
           replace (S (S k) + 1) with (k + 1 + 1 * 2) by lia. rewrite Nat.div_add by lia. lia.
Qed.

Lemma link_edges_charge nodes h0 ids finals : (forall i, In i ids -> exists p, find_node nodes i = Some p) -> forall todo h done,
  laid_out h0 h ids finals (node_at nodes) done ->
  NoDup (map (fun e => (em_source e, label_of_msg (em_label e))) (done ++ todo)) ->
  (forall e, In e todo -> In (em_source e) ids /\ In (em_target e) ids) ->
  exists h1, link_edges h nodes todo = Ok h1 /\ laid_out h0 h1 ids finals (node_at nodes) (done ++ todo) /\
  forall b,
    match spend_many (length todo) b with
    | Some b1 => try_link_edges b h nodes todo = Ok (b1, h1, true)
    | None => exists h2 done2, try_link_edges b h nodes todo = Ok (Some 0, h2, false) /\
        laid_out h0 h2 ids finals (node_at nodes) done2
    end.
Proof.
  intros Fi. induction todo as [|e todo IH]; intros h done L ND Wf.
  { exists h. rewrite app_nil_r. split; [reflexivity|]. split; [exact L|]. intros b. reflexivity. }
  destruct (Wf e (or_introl eq_refl)) as [Is It].
  destruct (link_edges_ok nodes h0 ids finals [e] h done L) as (h1 & E1 & L1).
  { rewrite map_app in *. cbn [map] in *. clear - ND.
    replace (map (fun e => (em_source e, label_of_msg (em_label e))) done ++
      (em_source e, label_of_msg (em_label e)) :: map (fun e => (em_source e, label_of_msg (em_label e))) todo) with
      ((map (fun e => (em_source e, label_of_msg (em_label e))) done ++ [(em_source e, label_of_msg (em_label e))]) ++
       map (fun e => (em_source e, label_of_msg (em_label e))) todo) in ND by now rewrite <- app_assoc.
    revert ND. generalize (map (fun e => (em_source e, label_of_msg (em_label e))) done ++ [(em_source e, label_of_msg (em_label e))]).
    intros l. induction l as [|x l IHl]; intros ND; constructor; inversion ND; subst; auto.
    intros X. match goal with H : ~ In _ _ |- _ => apply H end. apply in_or_app. now left. }
  { intros e' [<-|[]]. auto. }
  cbn [link_edges] in E1 |- *.
  destruct (add_edge h (node_at nodes (em_source e)) (label_of_msg (em_label e)) (node_at nodes (em_target e))) as [h1'| |] eqn:Ea;
    try discriminate. cbn [rbind] in *. injection E1 as ->.
  assert (Ta : forall b, try_add_edge b h (node_at nodes (em_source e)) (label_of_msg (em_label e)) (node_at nodes (em_target e)) =
    match spend b with Some b1 => Ok (b1, h1, true) | None => Ok (b, h, false) end).
  { intros b. unfold try_add_edge, add_edge in *.
    destruct (lo_node _ _ _ _ _ _ L _ Is) as (n & G & Fn & So & Ed).
    destruct (lo_fresh _ _ _ _ _ _ L _ Is) as [Nn _]. rewrite (read_ok _ _ _ Nn G) in *. cbn [rbind] in *.
    assert (Tr : transition n (label_of_msg (em_label e)) = null).
    { unfold transition. destruct (edge_get (nedges n) (label_of_msg (em_label e))) as [q|] eqn:Eg; auto.
      apply Ed in Eg. destruct Eg as (e' & I & Es & El & _). exfalso.
      rewrite map_app in ND. cbn in ND. apply NoDup_remove_2 in ND. apply ND. apply in_app_iff. left.
      apply in_map_iff. exists e'. rewrite Es, El. auto. }
    rewrite Tr in *. change (delete h null) with (Ok h : res heap) in *. cbn [rbind] in *.
    rewrite (read_ok _ _ _ Nn G) in *. cbn [rbind] in *. injection Ea as <-. destruct (spend b); reflexivity. }
  destruct (IH h1 (done ++ [e]) L1) as (h2 & E2 & L2 & B2).
  { rewrite <- app_assoc. exact ND. }
  { intros e' I'. apply Wf. now right. }
  rewrite <- app_assoc in L2. exists h2. split; [exact E2|]. split; [exact L2|]. intros b.
  cbn [length spend_many try_link_edges]. unfold look_up.
  destruct (Fi _ Is) as (ps & ->). destruct (Fi _ It) as (pt & ->). rewrite Ta.
  destruct (spend b) as [b1|] eqn:Sb; cbn [rbind negb].
  - apply B2.
  - exists h, done. rewrite (spend_zero _ Sb). auto.
Qed.

Lemma laid_out_grown h0 h ids finals f es l : laid_out h0 h ids finals f es -> NoDup l -> (forall i, In i l <-> In i ids) ->
  grown h0 h (map f l).
Proof.
  intros L ND I. split; [|split].
  - assert (J : forall i j, In i l -> In j l -> f i = f j -> i = j).
    { intros i j Hi Hj. apply (lo_inj _ _ _ _ _ _ L); apply I; auto. }
    clear - ND J. induction ND as [|i l Ni ND IH]; cbn; constructor.
    + intros X. apply in_map_iff in X. destruct X as (j & E & X). apply Ni. rewrite (J i j); auto; [now left|now right].
    + apply IH. intros; apply J; auto; now right.
  - intros p X. apply in_map_iff in X. destruct X as (i & <- & X). apply I in X.
    split; [apply (lo_fresh _ _ _ _ _ _ L); auto|]. destruct (lo_node _ _ _ _ _ _ L i X) as (n & G & _). congruence.
  - intros p X. apply (lo_rest _ _ _ _ _ _ L). intros i Hi ->. apply X. apply in_map. apply I. exact Hi.
Qed.

Lemma same_length (a b : list N) : NoDup a -> NoDup b -> (forall i, In i a <-> In i b) -> length a = length b.
Proof. intros A B I. apply Nat.le_antisymm; apply NoDup_incl_length; auto; intros i X; apply I; auto. Qed.

(** The allocations of from_protobuf. *)
Theorem from_protobuf_charge alloc h m ids : allocator alloc -> well_formed m ->
  NoDup ids -> (forall i, In i ids <-> In i (m_nodes m)) ->
  exists h1 bd, from_protobuf alloc h m = Ok (h1, bd) /\
  (forall b b1, spend_many (length (m_finals m) + 2 * length ids + length (m_edges m) + 1) b = Some b1 ->
     try_from_protobuf alloc b h m = Ok (b1, h1, Some bd)) /\
  (forall k, k < length (m_finals m) + 2 * length ids + length (m_edges m) + 1 ->
     exists h2 new, try_from_protobuf alloc (Some k) h m = Ok (Some 0, h2, None) /\
       grown h h2 new /\ length new = Nat.min (length ids) ((k - length (m_finals m) + 1) / 2)).
Proof.
  intros A Wf NDi Ii. unfold from_protobuf, try_from_protobuf.
  destruct (make_nodes_ok alloc h (m_finals m) A (m_nodes m) h [] []) as (h1 & nodes & E1 & all & I & D & L).
  { intros i; cbn; split; [tauto|]. intros [? X]. discriminate. }
  { constructor; cbn; try tauto. }
  rewrite E1.
  destruct (make_nodes_charge alloc (m_finals m) A (m_nodes m) h [] h1 nodes E1 ltac:(constructor))
    as (new & more & Em & Gr & Ln & NDk & Ks & Su & Th).
  rewrite app_nil_r in Em. subst more.
  assert (Len : length nodes = length ids).
  { rewrite <- (map_length fst). apply same_length; auto. intros i. rewrite Ks, Ii. cbn. tauto. }
  rewrite Len in *.
  assert (Ia : forall i, In i all <-> In i (m_nodes m)) by (intros i; rewrite I; cbn; tauto).
  destruct (link_edges_charge nodes h all (m_finals m)) with (todo := m_edges m) (h := h1) (done := @nil edge_msg) as (h2 & E2 & L2 & B2).
  { intros i X. apply D. exact X. }
  { exact L. }
  { apply Wf. }
  { intros e X. split; apply Ia; apply Wf; exact X. }
  rewrite E2. cbn [rbind]. eexists h2, _. split; [reflexivity|].
  assert (Rt : forall b, look_up b nodes (m_root m) = Some b).
  { intros b. unfold look_up. destruct (D (m_root m)) as [X _]. destruct X as (p & ->); [apply Ia, Wf|reflexivity]. }
  assert (Gl : forall hx done, laid_out h hx all (m_finals m) (node_at nodes) done -> grown h hx (map (node_at nodes) ids)).
  { intros hx done Lx. eapply laid_out_grown; eauto. intros i. rewrite Ii, Ia. tauto. }
  split.
  - intros b b1 Sp. rewrite !spend_many_add in Sp.
    destruct (spend_many (length (m_finals m)) b) as [c1|] eqn:C1; [|discriminate].
    destruct (spend_many (2 * length ids) c1) as [c2|] eqn:C2; [|discriminate].
    destruct (spend_many (length (m_edges m)) c2) as [c3|] eqn:C3; [|discriminate].
    destruct (Su c1) as (c2' & C2' & M); [rewrite C2; discriminate|]. rewrite C2 in C2'. injection C2' as <-. rewrite M.
    specialize (B2 c2). rewrite C3 in B2. rewrite B2. cbn [rbind negb]. rewrite Rt. cbn [spend_many] in Sp.
    destruct (spend c3); [|discriminate]. now injection Sp as ->.
  - intros k Hk. rewrite spend_many_finite. destruct (Nat.leb_spec (length (m_finals m)) k) as [F1|F1].
    2: { exists h, []. split; [reflexivity|]. split; [apply grown_refl|]. replace (k - length (m_finals m)) with 0 by lia.
         change ((0 + 1) / 2) with 0. cbn. lia. }
    set (k1 := k - length (m_finals m)) in *.
    destruct (Nat.lt_ge_cases k1 (2 * length ids)) as [F2|F2].
    { destruct (Th k1 F2) as (hx & nx & Ex & Gx & Lx). rewrite Ex. exists hx, nx. split; [reflexivity|]. split; [exact Gx|].
      rewrite Lx. symmetry. apply Nat.min_r. apply Nat.div_le_upper_bound; lia. }
    destruct (Su (Some k1)) as (c2 & C2 & M); [rewrite spend_many_finite; destruct (Nat.leb_spec (2 * length ids) k1); [discriminate|lia]|].
    rewrite M. rewrite spend_many_finite in C2. destruct (Nat.leb_spec (2 * length ids) k1); [|lia].
    assert (c2 = Some (k1 - 2 * length ids)) as -> by congruence. clear C2.
    assert (Mn : Nat.min (length ids) ((k1 + 1) / 2) = length ids).
    { apply Nat.min_l. apply Nat.div_le_lower_bound; lia. }
    rewrite Mn. specialize (B2 (Some (k1 - 2 * length ids))). rewrite spend_many_finite in B2.
    destruct (Nat.leb_spec (length (m_edges m)) (k1 - 2 * length ids)) as [F3|F3].
    + rewrite B2. cbn [rbind negb]. rewrite Rt.
      replace (k1 - 2 * length ids - length (m_edges m)) with 0 by lia. cbn [spend].
      exists h2, (map (node_at nodes) ids). split; [reflexivity|]. split; [eapply Gl; eauto|apply map_length].
    + destruct B2 as (hx & dx & Ex & Lx). rewrite Ex. cbn [rbind negb].
      exists hx, (map (node_at nodes) ids). split; [reflexivity|]. split; [eapply Gl; eauto|apply map_length].
Qed.
