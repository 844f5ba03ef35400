(** * SerialProofs: what the serializer writes and reads. *)
From Verif Require Import Base Spec ModelDawg ModelSerial SpecDawg SpecSerial TreeProofs HeapProofs DawgProofs.
Local Open Scope nat_scope.

Lemma label_round : forall c, label_of_msg (label_to_msg c) = c.
Proof. intros [[] [] [] [] [] [] [] []]; reflexivity. Qed.

Lemma id_insert_In : forall x y s, In y (id_insert x s) <-> y = x \/ In y s.
Proof.
  induction s as [|z s IH]; cbn; [intuition congruence|].
  destruct (N.ltb_spec x z); cbn; [intuition congruence|].
  destruct (N.eqb_spec x z); cbn; [|rewrite IH]; intuition congruence.
Qed.

Lemma id_insert_sorted : forall x s, StronglySorted N.lt s -> StronglySorted N.lt (id_insert x s).
Proof.
  induction s as [|z s IH]; intros S; cbn; [repeat constructor|].
  inversion S as [|? ? S' F]; subst. rewrite Forall_forall in F.
  destruct (N.ltb_spec x z).
  - constructor; auto. constructor; auto. rewrite Forall_forall. intros y I. specialize (F y I). lia.
  - destruct (N.eqb_spec x z); auto. constructor; auto. rewrite Forall_forall.
    intros y I. apply id_insert_In in I. destruct I as [->|I]; [lia|auto].
Qed.

Lemma sorted_N_NoDup : forall s, StronglySorted N.lt s -> NoDup s.
Proof.
  intros s H. induction H as [|x s S IH F]; constructor; auto.
  intros I. rewrite Forall_forall in F. specialize (F x I). lia.
Qed.

(** ** collect_nodes *)
Definition nodes_each (fuel : nat) (h : heap) :=
  fix each (es : list (char * ptr)) (ids finals : list N) : res (list N * list N) :=
    match es with
    | [] => Ok (ids, finals)
    | (_, target) :: es' =>
        do (ids1, finals1) <- collect_nodes fuel h target ids finals;
        each es' ids1 finals1
    end.

Lemma collect_nodes_S : forall fuel h p ids finals, collect_nodes (S fuel) h p ids finals =
  if set_mem p ids then Ok (ids, finals)
  else do n <- read h p;
       nodes_each fuel h (nedges n) (id_insert p ids) (if nfin n then id_insert p finals else finals).
Proof. reflexivity. Qed.

Record collected (h : heap) (ids ids' finals finals' : list N) : Prop := {
  co_old : forall x, In x ids -> In x ids';
  co_succ : forall x n c q, In x ids' -> ~ In x ids -> hget h x = Some n -> In (c, q) (nedges n) -> In q ids';
  co_fin : forall x, In x finals' <-> In x finals \/ (In x ids' /\ ~ In x ids /\ exists n, hget h x = Some n /\ nfin n = true);
  co_sorted : StronglySorted N.lt ids -> StronglySorted N.lt ids';
  co_fsorted : StronglySorted N.lt finals -> StronglySorted N.lt finals';
}.

Lemma collected_refl : forall h ids finals, collected h ids ids finals finals.
Proof. intros. constructor; auto; try tauto; intros; tauto. Qed.

Lemma collected_trans : forall h i1 i2 i3 f1 f2 f3, collected h i1 i2 f1 f2 -> collected h i2 i3 f2 f3 ->
  collected h i1 i3 f1 f3.
Proof.
  intros h i1 i2 i3 f1 f2 f3 A B. constructor.
  - intros x I. apply (co_old _ _ _ _ _ B), (co_old _ _ _ _ _ A); auto.
  - intros x n c q I NI G Ie. destruct (in_dec N.eq_dec x i2).
    + apply (co_old _ _ _ _ _ B). eapply (co_succ _ _ _ _ _ A); eauto.
    + eapply (co_succ _ _ _ _ _ B); eauto.
  - intros x. rewrite (co_fin _ _ _ _ _ B), (co_fin _ _ _ _ _ A).
    pose proof (co_old _ _ _ _ _ A x). pose proof (co_old _ _ _ _ _ B x).
    destruct (in_dec N.eq_dec x i2); intuition.
  - intros S. apply (co_sorted _ _ _ _ _ B), (co_sorted _ _ _ _ _ A); auto.
  - intros S. apply (co_fsorted _ _ _ _ _ B), (co_fsorted _ _ _ _ _ A); auto.
Qed.

Lemma height_edge_lt : forall f es c t, In (c, t) es -> height t < height (T f es).
Proof. intros. eapply height_edge; eauto. Qed.

Lemma collect_nodes_ok : forall fuel h p t ids finals, unf h p t -> height t <= fuel ->
  exists ids' finals', collect_nodes fuel h p ids finals = Ok (ids', finals') /\
    In p ids' /\ (forall x, In x ids' -> In x ids \/ reach h p x) /\ collected h ids ids' finals finals'.
Proof.
  induction fuel as [|fuel IH]; intros h p t ids finals U H.
  { pose proof (height_pos t). lia. }
  rewrite collect_nodes_S. destruct (set_mem p ids) eqn:M.
  { apply set_mem_In in M. exists ids, finals. split; auto. split; auto. split; auto using collected_refl. }
  assert (NI : ~ In p ids) by (rewrite <- set_mem_In; congruence). clear M.
  destruct (unf_read _ _ _ U) as (n & R & G & (So & Us & F)). rewrite R. cbn [rbind].
  assert (Each : forall es ts ids finals, unfs h es ts -> (forall c q, In (c, q) es -> In (c, q) (nedges n)) ->
    (forall c t', In (c, t') ts -> height t' <= fuel) ->
    exists ids' finals', nodes_each fuel h es ids finals = Ok (ids', finals') /\
      (forall c q, In (c, q) es -> In q ids') /\ (forall x, In x ids' -> In x ids \/ reach h p x) /\
      collected h ids ids' finals finals').
  { clear U So Us NI ids finals. intros es ts ids finals Us. revert ids finals.
    induction Us as [|c q t' es ts Uq Us IHs]; intros ids finals Sub Hh.
    - exists ids, finals. split; auto. split; [intros ? ? []|]. split; auto using collected_refl.
    - destruct (IH h q t' ids finals Uq (Hh c t' (or_introl eq_refl))) as (i1 & f1 & E1 & Iq & R1 & C1).
      destruct (IHs i1 f1) as (i2 & f2 & E2 & I2 & R2 & C2).
      { intros; apply Sub; right; auto. }
      { intros c' t'' I; apply (Hh c'); right; auto. }
      exists i2, f2. cbn [nodes_each]. fold (nodes_each fuel h). rewrite E1. cbn [rbind]. rewrite E2.
      split; auto. split; [|split].
      + intros c' q' [X|I]; [injection X as <- <-; apply (co_old _ _ _ _ _ C2); auto | eauto].
      + intros x I. destruct (R2 x I) as [J|J]; auto. destruct (R1 x J) as [K|K]; auto.
        right. eapply reach_cons; eauto. apply Sub. left; auto.
      + eapply collected_trans; eauto. }
  destruct t as [tf ts]. cbn [tedges tfin] in *.
  destruct (Each (nedges n) ts (id_insert p ids) (if nfin n then id_insert p finals else finals)) as (i2 & f2 & E2 & I2 & R2 & C2); auto.
  { intros c t' I. pose proof (height_edge_lt tf _ _ _ I). lia. }
  exists i2, f2. split; [exact E2|].
  assert (Ip : In p i2) by (apply (co_old _ _ _ _ _ C2), id_insert_In; auto).
  split; auto. split.
  { intros x I. destruct (R2 x I) as [J|J]; auto. apply id_insert_In in J. destruct J as [->|J]; auto using reach_refl. }
  constructor.
  - intros x I. apply (co_old _ _ _ _ _ C2), id_insert_In; auto.
  - intros x n' c q I J Gx Ie. destruct (N.eq_dec x p) as [->|Nx].
    + rewrite G in Gx. injection Gx as <-. eauto.
    + eapply (co_succ _ _ _ _ _ C2); eauto. rewrite id_insert_In. tauto.
  - intros x. rewrite (co_fin _ _ _ _ _ C2). rewrite id_insert_In.
    destruct (N.eq_dec x p) as [->|Nx].
    + destruct (nfin n) eqn:Fn; [rewrite id_insert_In|].
      * split; [|intros _; left; auto]. intros _. right. split; auto. split; auto. exists n; auto.
      * split; [intros [I|(_ & X & _)]; [auto|tauto]|]. intros [I|(_ & _ & m & Gm & Fm)]; auto. congruence.
    + destruct (nfin n); [rewrite id_insert_In|]; tauto.
  - intros S. apply (co_sorted _ _ _ _ _ C2), id_insert_sorted; auto.
  - intros S. apply (co_fsorted _ _ _ _ _ C2). destruct (nfin n); auto using id_insert_sorted.
Qed.

Lemma collect_nodes_all : forall fuel h p t, unf h p t -> height t <= fuel ->
  exists ids finals, collect_nodes fuel h p [] [] = Ok (ids, finals) /\
    StronglySorted N.lt ids /\ StronglySorted N.lt finals /\
    (forall x, In x ids <-> reach h p x) /\
    (forall x, In x finals <-> reach h p x /\ exists n, hget h x = Some n /\ nfin n = true).
Proof.
  intros fuel h p t U H. destruct (collect_nodes_ok fuel h p t [] [] U H) as (ids & finals & E & Ip & R & C).
  assert (I : forall x, In x ids <-> reach h p x).
  { intros x. split; [intros I; destruct (R x I) as [[]|]; auto|].
    intros Rx. apply (closed_reach h (fun y => In y ids) p x); auto. intros y n c q. intros. eapply (co_succ _ _ _ _ _ C); eauto. }
  exists ids, finals. split; auto. split; [apply C; constructor|]. split; [apply C; constructor|]. split; auto.
  intros x. rewrite (co_fin _ _ _ _ _ C), I. cbn. intuition.
Qed.

(** ** collect_edges *)
Definition key_lt (k1 k2 : N * char) : Prop :=
  (fst k1 < fst k2)%N \/ (fst k1 = fst k2 /\ (schar (snd k1) < schar (snd k2))%Z).
Definition keys_sorted (m : edge_map) : Prop := StronglySorted (fun e f => key_lt (fst e) (fst f)) m.

Lemma key_eqb_eq : forall k1 k2, key_eqb k1 k2 = true <-> k1 = k2.
Proof.
  intros [i c] [j d]. unfold key_eqb. cbn. rewrite andb_true_iff, N.eqb_eq.
  destruct (ceqb_spec c d) as [[-> E]|[N E]]; rewrite E; intuition congruence.
Qed.

Lemma key_ltb_lt : forall k1 k2, key_ltb k1 k2 = true <-> key_lt k1 k2.
Proof.
  intros [i c] [j d]. unfold key_ltb, key_lt. cbn.
  rewrite orb_true_iff, andb_true_iff, N.eqb_eq, N.ltb_lt, Z.ltb_lt. tauto.
Qed.

Lemma key_total : forall k1 k2, key_lt k1 k2 \/ k1 = k2 \/ key_lt k2 k1.
Proof.
  intros [i c] [j d]. unfold key_lt; cbn.
  destruct (N.lt_total i j) as [|[->|]]; auto.
  destruct (Z.lt_total (schar c) (schar d)) as [|[E|]]; auto.
  apply schar_inj in E. subst. auto.
Qed.

Lemma key_trans : forall k1 k2 k3, key_lt k1 k2 -> key_lt k2 k3 -> key_lt k1 k3.
Proof. unfold key_lt. intros. lia. Qed.

Lemma edges_contains_In : forall m k, edges_contains m k = true <-> exists v, In (k, v) m.
Proof.
  induction m as [|[k' v'] m IH]; intros k; cbn.
  - split; [discriminate|]. intros [? []].
  - rewrite orb_true_iff, key_eqb_eq, IH. split.
    + intros [->|[v I]]; eauto.
    + intros [v [X|I]]; eauto. injection X as <- <-. auto.
Qed.

Lemma edges_insert_In : forall m k v e, In e (edges_insert m k v) <-> e = (k, v) \/ In e m.
Proof.
  induction m as [|[k' v'] m IH]; intros k v e; cbn; [intuition congruence|].
  destruct (key_ltb k k'); cbn; [|rewrite IH]; intuition congruence.
Qed.

Lemma edges_insert_sorted : forall m k v, keys_sorted m -> (forall v', ~ In (k, v') m) -> keys_sorted (edges_insert m k v).
Proof.
  unfold keys_sorted. induction m as [|[k' v'] m IH]; intros k v S NI; cbn; [repeat constructor|].
  inversion S as [|? ? S' F]; subst. rewrite Forall_forall in F.
  destruct (key_ltb k k') eqn:L.
  - apply key_ltb_lt in L. constructor; auto. constructor; auto. rewrite Forall_forall.
    intros e I. specialize (F e I). cbn in *. eapply key_trans; eauto.
  - constructor; [apply IH; auto; intros v'' I; apply (NI v''); right; auto|].
    rewrite Forall_forall. intros e I. apply edges_insert_In in I. destruct I as [->|I]; auto. cbn.
    destruct (key_total k k') as [X|[X|X]]; auto.
    + apply key_ltb_lt in X. congruence.
    + subst. exfalso. eapply NI. left; eauto.
Qed.

Definition edges_each (fuel : nat) (h : heap) (source : ptr) :=
  fix each (es : list (char * ptr)) (edges : edge_map) : res edge_map :=
    match es with
    | [] => Ok edges
    | (label, target) :: es' =>
        if edges_contains edges (source, label) then each es' edges
        else
          do edges1 <- collect_edges fuel h target (edges_insert edges (source, label) target);
          each es' edges1
    end.

Lemma collect_edges_S : forall fuel h p edges, collect_edges (S fuel) h p edges =
  do n <- read h p; edges_each fuel h p (nedges n) edges.
Proof. reflexivity. Qed.

(** The edges of [h], as entries of the map. *)
Definition real (h : heap) (e : N * char * N) : Prop :=
  exists n, hget h (fst (fst e)) = Some n /\ In (snd (fst e), snd e) (nedges n).
Definition has_all (h : heap) (x : ptr) (m : edge_map) : Prop :=
  forall n c q, hget h x = Some n -> In (c, q) (nedges n) -> In (x, c, q) m.

Record traced (h : heap) (m m' : edge_map) : Prop := {
  tr_old : forall e, In e m -> In e m';
  tr_real : (forall e, In e m -> real h e) -> forall e, In e m' -> real h e;
  tr_succ : forall e, In e m' -> ~ In e m -> has_all h (snd e) m';
  tr_sorted : keys_sorted m -> keys_sorted m';
}.

Lemma has_all_mono : forall h x m m', has_all h x m -> (forall e, In e m -> In e m') -> has_all h x m'.
Proof. intros h x m m' H S n c q G I. apply S. eapply H; eauto. Qed.

Lemma traced_refl : forall h m, traced h m m.
Proof. intros. constructor; auto. intros; tauto. Qed.

Lemma entry_dec : forall (e f : N * char * N), {e = f} + {e <> f}.
Proof. decide equality; try apply N.eq_dec. decide equality; try apply N.eq_dec. apply ascii_dec. Qed.

Lemma traced_trans : forall h m1 m2 m3, traced h m1 m2 -> traced h m2 m3 -> traced h m1 m3.
Proof.
  intros h m1 m2 m3 A B. constructor.
  - intros e I. apply (tr_old _ _ _ B), (tr_old _ _ _ A); auto.
  - intros R. apply (tr_real _ _ _ B), (tr_real _ _ _ A); auto.
  - intros e I NI. destruct (in_dec entry_dec e m2).
    + eapply has_all_mono; [eapply (tr_succ _ _ _ A); eauto|apply B].
    + eapply (tr_succ _ _ _ B); eauto.
  - intros S. apply (tr_sorted _ _ _ B), (tr_sorted _ _ _ A); auto.
Qed.

(** Entries that agree with the heap determine each other by their keys. *)
Lemma real_fun : forall h x c q q' n, hget h x = Some n -> esorted (nedges n) ->
  real h (x, c, q) -> In (c, q') (nedges n) -> q = q'.
Proof.
  intros h x c q q' n G S (n' & G' & I) J. cbn in *. rewrite G in G'. injection G' as <-.
  apply (edge_In_get _ _ _ _ S) in I. apply (edge_In_get _ _ _ _ S) in J. congruence.
Qed.

Lemma collect_edges_ok : forall fuel h p t m, unf h p t -> height t <= fuel -> (forall e, In e m -> real h e) ->
  exists m', collect_edges fuel h p m = Ok m' /\ has_all h p m' /\
    (forall e, In e m' -> In e m \/ reach h p (fst (fst e))) /\ traced h m m'.
Proof.
  induction fuel as [|fuel IH]; intros h p t m U H Re.
  { pose proof (height_pos t). lia. }
  rewrite collect_edges_S.
  destruct (unf_read _ _ _ U) as (n & R & G & (So & Us & F)). rewrite R. cbn [rbind].
  assert (Each : forall es ts m, unfs h es ts -> (forall c q, In (c, q) es -> In (c, q) (nedges n)) ->
    (forall c t', In (c, t') ts -> height t' <= fuel) -> (forall e, In e m -> real h e) ->
    exists m', edges_each fuel h p es m = Ok m' /\
      (forall c q, In (c, q) es -> In (p, c, q) m') /\
      (forall e, In e m' -> In e m \/ reach h p (fst (fst e))) /\ traced h m m').
  { clear U Us m Re. intros es ts m Us. revert m.
    induction Us as [|c q t' es ts Uq Us IHs]; intros m Sub Hh Re.
    - exists m. split; auto. split; [intros ? ? []|]. split; auto using traced_refl.
    - assert (Icq : In (c, q) (nedges n)) by (apply Sub; left; auto).
      cbn [edges_each]. fold (edges_each fuel h p). destruct (edges_contains m (p, c)) eqn:Ec.
      + apply edges_contains_In in Ec. destruct Ec as [v Iv].
        assert (v = q) as -> by (eapply real_fun; eauto).
        destruct (IHs m) as (m2 & E2 & I2 & R2 & C2); auto.
        { intros; apply Sub; right; auto. }
        { intros c' t'' I; apply (Hh c'); right; auto. }
        exists m2. split; auto. split; [|split; auto].
        intros c' q' [X|I]; [injection X as <- <-; apply (tr_old _ _ _ C2); auto | eauto].
      + assert (Nc : forall v', ~ In (p, c, v') m).
        { intros v' I. assert (edges_contains m (p, c) = true) by (apply edges_contains_In; eauto). congruence. }
        assert (Re1 : forall e, In e (edges_insert m (p, c) q) -> real h e).
        { intros e I. apply edges_insert_In in I. destruct I as [->|I]; auto. exists n. auto. }
        destruct (IH h q t' (edges_insert m (p, c) q) Uq (Hh c t' (or_introl eq_refl)) Re1) as (m1 & E1 & A1 & R1 & C1).
        destruct (IHs m1) as (m2 & E2 & I2 & R2 & C2); auto.
        { intros; apply Sub; right; auto. }
        { intros c' t'' I; apply (Hh c'); right; auto. }
        { apply (tr_real _ _ _ C1); auto. }
        exists m2. rewrite E1. cbn [rbind]. rewrite E2. split; auto. split; [|split].
        * intros c' q' [X|I]; [injection X as <- <- | eauto].
          apply (tr_old _ _ _ C2), (tr_old _ _ _ C1), edges_insert_In; auto.
        * intros e I. destruct (R2 e I) as [J|J]; auto. destruct (R1 e J) as [K|K].
          -- apply edges_insert_In in K. destruct K as [->|K]; auto. right. apply reach_refl.
          -- right. eapply reach_cons; eauto.
        * eapply traced_trans; [|exact C2]. constructor.
          -- intros e I. apply (tr_old _ _ _ C1), edges_insert_In; auto.
          -- intros _. apply (tr_real _ _ _ C1); auto.
          -- intros e I NI. destruct (in_dec entry_dec e (edges_insert m (p, c) q)) as [J|J].
             ++ apply edges_insert_In in J. destruct J as [->|J]; [|tauto]. exact A1.
             ++ apply (tr_succ _ _ _ C1); auto.
          -- intros S. apply (tr_sorted _ _ _ C1), edges_insert_sorted; auto. }
  destruct t as [tf ts]. cbn [tedges tfin] in *.
  destruct (Each (nedges n) ts m) as (m2 & E2 & I2 & R2 & C2); auto.
  { intros c t' I. pose proof (height_edge_lt tf _ _ _ I). lia. }
  exists m2. split; auto. split; [|split; auto].
  intros n' c q G' I. rewrite G in G'. injection G' as <-. auto.
Qed.

Lemma collect_edges_all : forall fuel h p t, unf h p t -> height t <= fuel ->
  exists m, collect_edges fuel h p [] = Ok m /\ keys_sorted m /\
    forall x c q, In (x, c, q) m <-> reach h p x /\ real h (x, c, q).
Proof.
  intros fuel h p t U H.
  destruct (collect_edges_ok fuel h p t [] U H) as (m & E & A & R & C); [intros ? []|].
  assert (Re : forall e, In e m -> real h e) by (apply C; intros ? []).
  exists m. split; auto. split; [apply C; constructor|]. intros x c q. split.
  - intros I. split; auto. destruct (R _ I) as [[]|X]; auto.
  - intros [Rx (n & G & I)]. cbn in *.
    assert (All : has_all h x m).
    { apply (closed_reach h (fun y => has_all h y m) p x); auto.
      intros y ny d z Hy Gy Iz. specialize (Hy _ _ _ Gy Iz).
      apply (tr_succ _ _ _ C (y, d, z)); auto. }
    eapply All; eauto.
Qed.

(** ** What to_protobuf writes *)
Record describes (h : heap) (d : dawg) (m : message) : Prop := {
  ds_nodes : forall x, In x (m_nodes m) <-> reach h (d_root d) x;
  ds_finals : forall x, In x (m_finals m) <-> reach h (d_root d) x /\ exists n, hget h x = Some n /\ nfin n = true;
  ds_edges : forall e, In e (m_edges m) <-> exists x c q, e = EdgeMsg x (label_to_msg c) q /\ reach h (d_root d) x /\
    exists n, hget h x = Some n /\ In (c, q) (nedges n);
  ds_root : m_root m = d_root d;
  ds_size : m_size m = d_size d;
  ds_nodup : NoDup (m_nodes m);
  ds_nodup_finals : NoDup (m_finals m);
  ds_keys : NoDup (map (fun e => (em_source e, label_of_msg (em_label e))) (m_edges m));
}.

Lemma key_irrefl : forall k, ~ key_lt k k.
Proof. unfold key_lt. intros. lia. Qed.

Lemma to_protobuf_ok : forall fuel h d t, unf h (d_root d) t -> height t <= fuel ->
  exists m, to_protobuf fuel h d = Ok m /\ describes h d m.
Proof.
  intros fuel h d t U H. unfold to_protobuf.
  destruct (collect_nodes_all fuel h _ t U H) as (ids & finals & E1 & S1 & S2 & I1 & I2).
  destruct (collect_edges_all fuel h _ t U H) as (es & E2 & S3 & I3).
  rewrite E1. cbn [rbind]. rewrite E2. cbn [rbind]. eexists. split; [reflexivity|].
  constructor; cbn; auto using sorted_N_NoDup.
  - intros e. rewrite in_map_iff. split.
    + intros ([[x c] q] & <- & I). apply I3 in I. destruct I as (Rx & n & G & I). exists x, c, q. cbn. eauto.
    + intros (x & c & q & -> & Rx & n & G & I). exists (x, c, q). split; auto. apply I3. split; auto. exists n; auto.
  - rewrite map_map. cbn. clear - S3. unfold keys_sorted in S3.
    induction S3 as [|[[x c] q] es S IH F]; cbn; constructor; auto.
    rewrite label_round. intros I. apply in_map_iff in I. destruct I as ([[x' c'] q'] & X & I). cbn in X.
    rewrite label_round in X. injection X as -> ->. rewrite Forall_forall in F. specialize (F _ I). cbn in F.
    eapply key_irrefl; eauto.
Qed.

Lemma collect_nodes_mono : forall fuel fuel' h p ids finals r, fuel <= fuel' ->
  collect_nodes fuel h p ids finals = Ok r -> collect_nodes fuel' h p ids finals = Ok r.
Proof.
  induction fuel as [|fuel IH]; intros [|fuel'] h p ids finals r Le E; try discriminate; try lia.
  rewrite collect_nodes_S in *. destruct (set_mem p ids); auto.
  destruct (read h p) as [n| |]; cbn [rbind] in *; auto.
  revert E. generalize (id_insert p ids) (if nfin n then id_insert p finals else finals).
  induction (nedges n) as [|[c q] es IHe]; intros i f E; cbn [nodes_each] in *; auto.
  fold (nodes_each fuel h) in E. fold (nodes_each fuel' h).
  destruct (collect_nodes fuel h q i f) as [[i1 f1]| |] eqn:E1; cbn [rbind] in E; try discriminate.
  rewrite (IH fuel' h q i f _ ltac:(lia) E1). cbn [rbind]. auto.
Qed.

Lemma collect_edges_mono : forall fuel fuel' h p m r, fuel <= fuel' ->
  collect_edges fuel h p m = Ok r -> collect_edges fuel' h p m = Ok r.
Proof.
  induction fuel as [|fuel IH]; intros [|fuel'] h p m r Le E; try discriminate; try lia.
  rewrite collect_edges_S in *.
  destruct (read h p) as [n| |]; cbn [rbind] in *; auto.
  revert m E. induction (nedges n) as [|[c q] es IHe]; intros m E; cbn [edges_each] in *; auto.
  fold (edges_each fuel h p) in E. fold (edges_each fuel' h p).
  destruct (edges_contains m (p, c)); auto.
  destruct (collect_edges fuel h q (edges_insert m (p, c) q)) as [m1| |] eqn:E1; cbn [rbind] in E; try discriminate.
  rewrite (IH fuel' h q _ _ ltac:(lia) E1). cbn [rbind]. auto.
Qed.

Lemma to_protobuf_mono : forall fuel fuel' h d r, fuel <= fuel' ->
  to_protobuf fuel h d = Ok r -> to_protobuf fuel' h d = Ok r.
Proof.
  intros fuel fuel' h d r Le E. unfold to_protobuf in *.
  destruct (collect_nodes fuel h (d_root d) [] []) as [[i f]| |] eqn:E1; cbn [rbind] in E; try discriminate.
  rewrite (collect_nodes_mono _ _ _ _ _ _ _ Le E1). cbn [rbind].
  destruct (collect_edges fuel h (d_root d) []) as [es| |] eqn:E2; cbn [rbind] in E; try discriminate.
  rewrite (collect_edges_mono _ _ _ _ _ _ Le E2). auto.
Qed.

Lemma to_protobuf_all : forall h d t, unf h (d_root d) t ->
  exists m, runs_to (fun fuel => to_protobuf fuel h d) m /\ describes h d m.
Proof.
  intros h d t U. destruct (to_protobuf_ok (height t) h d t U (le_n _)) as (m & E & D).
  exists m. split; auto. exists (height t). intros fuel Le. eapply to_protobuf_mono; eauto.
Qed.

Lemma written : forall h d m t, unf h (d_root d) t -> runs_to (fun fuel => to_protobuf fuel h d) m -> describes h d m.
Proof.
  intros h d m t U R. destruct (to_protobuf_all h d t U) as (m' & R' & D).
  rewrite (runs_to_det _ _ _ _ R R'). auto.
Qed.

(** ** What from_protobuf makes of a well-formed message *)
(** [f] maps ids to nodes; the nodes have the edges [es]. *)
Record laid_out (h0 h : heap) (ids finals : list N) (f : N -> ptr) (es : list edge_msg) : Prop := {
  lo_fresh : forall i, In i ids -> f i <> null /\ hget h0 (f i) = None;
  lo_inj : forall i j, In i ids -> In j ids -> f i = f j -> i = j;
  lo_node : forall i, In i ids -> exists n, hget h (f i) = Some n /\ nfin n = set_mem i finals /\ esorted (nedges n) /\
    forall c q, edge_get (nedges n) c = Some q <->
      exists e, In e es /\ em_source e = i /\ label_of_msg (em_label e) = c /\ f (em_target e) = q;
  lo_rest : forall p, (forall i, In i ids -> p <> f i) -> hget h p = hget h0 p;
}.

Lemma find_node_In : forall nodes i p, find_node nodes i = Some p -> In (i, p) nodes.
Proof.
  induction nodes as [|[j q] nodes IH]; intros i p; cbn; [discriminate|].
  destruct (N.eqb_spec i j); intros E; [injection E as ->; subst; auto | auto].
Qed.

Lemma make_nodes_ok : forall alloc h0 finals, allocator alloc -> forall ids h nodes done,
  (forall i, In i done <-> exists p, find_node nodes i = Some p) ->
  laid_out h0 h done finals (node_at nodes) [] ->
  exists h' nodes', make_nodes alloc h finals ids nodes = (h', nodes') /\
    exists all, (forall i, In i all <-> In i done \/ In i ids) /\
      (forall i, In i all <-> exists p, find_node nodes' i = Some p) /\
      laid_out h0 h' all finals (node_at nodes') [].
Proof.
  intros alloc h0 finals A. induction ids as [|id ids IH]; intros h nodes done D L; cbn [make_nodes].
  - exists h, nodes. split; auto. exists done. split; [intros; cbn; tauto|]. auto.
  - destruct (find_node nodes id) as [p|] eqn:Ef.
    + destruct (IH h nodes done D L) as (h' & nodes' & E & all & I & D' & L').
      exists h', nodes'. split; auto. exists all. split; auto. intros i. rewrite I. cbn.
      assert (In id done) by (apply D; eauto). intuition (subst; auto).
    + unfold new_node. destruct (A h) as [Np Np2]. set (p := alloc h) in *.
      assert (Nid : ~ In id done). { rewrite D. intros [q X]. congruence. }
      assert (At : forall i, In i done -> node_at ((id, p) :: nodes) i = node_at nodes i).
      { intros i I. unfold node_at. cbn. destruct (N.eqb_spec i id); auto. subst. tauto. }
      assert (Ai : node_at ((id, p) :: nodes) id = p) by (unfold node_at; cbn; rewrite N.eqb_refl; auto).
      assert (Fresh : forall i, In i done -> node_at nodes i <> p).
      { intros i I X. destruct (lo_node _ _ _ _ _ _ L i I) as (n & G & _). rewrite X in G. congruence. }
      destruct (IH (hset h p (Node (set_mem id finals) [])) ((id, p) :: nodes) (id :: done)) as (h' & nodes' & E & all & I & D' & L').
      * intros i. cbn. destruct (N.eqb_spec i id); [subst; split; eauto|]. rewrite <- D. intuition congruence.
      * constructor.
        -- intros i [<-|I].
           ++ rewrite Ai. split; auto. rewrite <- (lo_rest _ _ _ _ _ _ L); auto.
              intros j J X. apply (Fresh j); auto.
           ++ rewrite At by auto. apply (lo_fresh _ _ _ _ _ _ L); auto.
        -- intros i j [<-|I] [<-|J]; auto; rewrite ?Ai, ?At by auto; intros X.
           ++ exfalso. eapply Fresh; eauto.
           ++ exfalso. eapply Fresh; eauto.
           ++ eapply (lo_inj _ _ _ _ _ _ L); eauto.
        -- intros i [<-|I].
           ++ rewrite Ai, hget_hset_same. eexists. split; [reflexivity|]. cbn. split; auto. split; [constructor|].
              intros; split; [discriminate|]. intros (? & [] & _).
           ++ rewrite At by auto. rewrite hget_hset_other by (apply Fresh; auto).
              destruct (lo_node _ _ _ _ _ _ L i I) as (n & G & Fn & So & Ed). exists n. split; auto. split; auto. split; auto.
              intros c q. rewrite Ed. split; intros (? & [] & _).
        -- intros x X. rewrite hget_hset_other.
           ++ apply (lo_rest _ _ _ _ _ _ L). intros i I. rewrite <- At by auto. apply X. right; auto.
           ++ rewrite <- Ai. apply X. left; auto.
      * exists h', nodes'. split; auto. exists all. split; auto. intros i. rewrite I. cbn. tauto.
Qed.

Lemma link_edges_ok : forall nodes h0 ids finals todo h done, laid_out h0 h ids finals (node_at nodes) done ->
  NoDup (map (fun e => (em_source e, label_of_msg (em_label e))) (done ++ todo)) ->
  (forall e, In e todo -> In (em_source e) ids /\ In (em_target e) ids) ->
  exists h', link_edges h nodes todo = Ok h' /\ laid_out h0 h' ids finals (node_at nodes) (done ++ todo).
Proof.
  intros nodes h0 ids finals. induction todo as [|e todo IH]; intros h done L ND Wf; cbn [link_edges].
  { exists h. rewrite app_nil_r. auto. }
  destruct (Wf e (or_introl eq_refl)) as [Is It].
  destruct (lo_node _ _ _ _ _ _ L _ Is) as (n & G & Fn & So & Ed).
  destruct (lo_fresh _ _ _ _ _ _ L _ Is) as [Nn _].
  unfold add_edge. rewrite (read_ok _ _ _ Nn G). cbn [rbind].
  assert (Tr : transition n (label_of_msg (em_label e)) = null).
  { unfold transition. destruct (edge_get (nedges n) (label_of_msg (em_label e))) as [q|] eqn:Eg; auto.
    apply Ed in Eg. destruct Eg as (e' & I & Es & El & _). exfalso.
    rewrite map_app in ND. cbn in ND. apply NoDup_remove_2 in ND. apply ND. apply in_app_iff. left.
    apply in_map_iff. exists e'. rewrite Es, El. auto. }
  rewrite Tr. change (delete h null) with (Ok h : res heap). cbn [rbind]. rewrite (read_ok _ _ _ Nn G). cbn [rbind].
  destruct (IH (hset h (node_at nodes (em_source e)) (Node (nfin n) (edge_set (nedges n) (label_of_msg (em_label e)) (node_at nodes (em_target e))))) (done ++ [e])) as (h' & E & L').
  - constructor.
    + apply L.
    + apply L.
    + intros i I. destruct (N.eq_dec i (em_source e)) as [->|Ni].
      * rewrite hget_hset_same. eexists. split; [reflexivity|]. cbn [nfin nedges]. split; auto. split; [apply edge_set_sorted; auto|].
        intros c q. rewrite edge_get_set. destruct (ceqb_spec c (label_of_msg (em_label e))) as [[-> Ec]|[Nc Ec]]; rewrite Ec.
        -- split.
           ++ intros X. injection X as <-. exists e. rewrite in_app_iff. cbn. auto.
           ++ intros (e' & I' & Es & El & Et). apply in_app_iff in I'. destruct I' as [I'|[<-|[]]]; [|congruence].
              exfalso. unfold transition in Tr.
              assert (X : edge_get (nedges n) (label_of_msg (em_label e)) = Some q) by (apply Ed; exists e'; auto).
              rewrite X in Tr. rewrite map_app in ND. cbn in ND. apply NoDup_remove_2 in ND. apply ND. apply in_app_iff. left.
              apply in_map_iff. exists e'. rewrite Es, El. auto.
        -- rewrite Ed. split; intros (e' & I' & Es & El & Et); exists e'; (split; [|auto]).
           ++ apply in_app_iff; auto.
           ++ apply in_app_iff in I'. destruct I' as [I'|[<-|[]]]; auto. congruence.
      * rewrite hget_hset_other.
        -- destruct (lo_node _ _ _ _ _ _ L i I) as (n' & G' & Fn' & So' & Ed'). exists n'. split; auto. split; auto. split; auto.
           intros c q. rewrite Ed'. split; intros (e' & I' & Es & El & Et); exists e'; (split; [|auto]).
           ++ apply in_app_iff; auto.
           ++ apply in_app_iff in I'. destruct I' as [I'|[<-|[]]]; auto. congruence.
        -- intros X. apply Ni. eapply (lo_inj _ _ _ _ _ _ L); eauto.
    + intros p X. rewrite hget_hset_other by (apply X; auto). apply (lo_rest _ _ _ _ _ _ L); auto.
  - rewrite <- app_assoc. auto.
  - intros; apply Wf; right; auto.
  - rewrite <- app_assoc in L'. exists h'. auto.
Qed.

Lemma from_protobuf_ok : forall alloc h m, allocator alloc -> well_formed m ->
  exists f h', from_protobuf alloc h m = Ok (h', Builder (Dawg (f (m_root m)) (m_size m)) [] None) /\
    laid_out h h' (m_nodes m) (m_finals m) f (m_edges m).
Proof.
  intros alloc h m A Wf. unfold from_protobuf.
  destruct (make_nodes_ok alloc h (m_finals m) A (m_nodes m) h [] []) as (h1 & nodes & E1 & all & I & D & L).
  - intros i; cbn; split; [tauto|]. intros [? X]. discriminate.
  - constructor; cbn; try tauto.
  - rewrite E1.
    destruct (link_edges_ok nodes h all (m_finals m) (m_edges m) h1 [] L) as (h2 & E2 & L2).
    + apply Wf.
    + intros e Ie. rewrite !I. split; right; [apply (wf_source _ Wf) | apply (wf_target _ Wf)]; auto.
    + rewrite E2. cbn [rbind]. exists (node_at nodes), h2. split; auto.
      assert (I' : forall i, In i (m_nodes m) <-> In i all) by (intros; rewrite I; cbn; tauto).
      destruct L2 as [L2a L2b L2c L2d]. constructor.
      * intros i J. apply L2a, I'; auto.
      * intros i j J K. apply L2b; apply I'; auto.
      * intros i J. apply L2c, I'; auto.
      * intros p X. apply L2d. intros i J. apply X, I'; auto.
Qed.

(** ** The restored copy *)
Lemma describes_well_formed : forall h d m, describes h d m -> well_formed m.
Proof.
  intros h d m D. constructor.
  - intros e I. apply (ds_edges _ _ _ D) in I. destruct I as (x & c & q & -> & R & n & G & I). cbn.
    apply (ds_nodes _ _ _ D); auto.
  - intros e I. apply (ds_edges _ _ _ D) in I. destruct I as (x & c & q & -> & R & n & G & I). cbn.
    apply (ds_nodes _ _ _ D). eapply reach_step; eauto.
  - apply D.
  - apply (ds_nodes _ _ _ D). rewrite (ds_root _ _ _ D). apply reach_refl.
Qed.

(** [h'] holds a copy of what [h] has below [root], moved by [f]. *)
Record copy (h : heap) (root : ptr) (h0 h' : heap) (f : ptr -> ptr) : Prop := {
  cp_node : forall p n, reach h root p -> hget h p = Some n -> f p <> null /\
    hget h' (f p) = Some (Node (nfin n) (map (fun e => (fst e, f (snd e))) (nedges n)));
  cp_inj : forall p q, reach h root p -> reach h root q -> f p = f q -> p = q;
  cp_fresh : forall p, reach h root p -> hget h0 (f p) = None;
  cp_rest : forall x, (forall p, reach h root p -> x <> f p) -> hget h' x = hget h0 x;
}.

Lemma edge_get_map : forall (f : ptr -> ptr) es c,
  edge_get (map (fun e => (fst e, f (snd e))) es) c = match edge_get es c with Some q => Some (f q) | None => None end.
Proof. induction es as [|[d q] es IH]; intros c; cbn; auto. destruct (ceqb c d); auto. Qed.

Lemma esorted_map : forall (f : ptr -> ptr) es, esorted es -> esorted (map (fun e => (fst e, f (snd e))) es).
Proof.
  unfold esorted. intros f es S. induction S as [|[c q] es S IH F]; cbn; constructor; auto.
  rewrite Forall_forall in *. intros [d r] I. apply in_map_iff in I. destruct I as ([d' r'] & X & I). injection X as <- <-.
  specialize (F _ I). exact F.
Qed.

Lemma restored_copy : forall alloc h d t m h1, allocator alloc -> unf h (d_root d) t -> describes h d m ->
  exists f h', from_protobuf alloc h1 m = Ok (h', Builder (Dawg (f (d_root d)) (d_size d)) [] None) /\
    copy h (d_root d) h1 h' f.
Proof.
  intros alloc h d t m h1 A U D.
  destruct (from_protobuf_ok alloc h1 m A (describes_well_formed _ _ _ D)) as (f & h' & E & L).
  rewrite (ds_root _ _ _ D), (ds_size _ _ _ D) in E. exists f, h'. split; auto.
  pose proof (ds_nodes _ _ _ D) as Nd.
  constructor.
  - intros p n R G. assert (I : In p (m_nodes m)) by (apply Nd; auto).
    split; [apply (lo_fresh _ _ _ _ _ _ L); auto|].
    destruct (lo_node _ _ _ _ _ _ L p I) as ([fin es] & G' & Fn & So & Ed). cbn in *. rewrite G'. f_equal. f_equal.
    + subst fin. destruct (set_mem p (m_finals m)) eqn:M.
      * apply set_mem_In in M. apply (ds_finals _ _ _ D) in M. destruct M as (_ & n' & Gn & Fn). congruence.
      * destruct (nfin n) eqn:Fn; auto. assert (X : In p (m_finals m)) by (apply (ds_finals _ _ _ D); eauto).
        apply set_mem_In in X. congruence.
    + destruct (unf_reach _ _ _ R _ U) as (t' & U' & _). apply unf_inv in U'.
      destruct U' as (n' & _ & Gn & (Sn & _)). rewrite G in Gn. injection Gn as <-.
      apply edges_ext; auto using esorted_map. intros c. rewrite edge_get_map.
      destruct (edge_get (nedges n) c) as [q|] eqn:Eg.
      * apply Ed. exists (EdgeMsg p (label_to_msg c) q). cbn. rewrite label_round. split; auto.
        apply (ds_edges _ _ _ D). exists p, c, q. split; auto. split; auto. exists n. split; auto. apply edge_get_In; auto.
      * destruct (edge_get es c) as [q'|] eqn:Eg'; auto. apply Ed in Eg'.
        destruct Eg' as (e & Ie & Es & El & Et). apply (ds_edges _ _ _ D) in Ie.
        destruct Ie as (x & c' & q & -> & Rx & nx & Gx & Ix). cbn in *. subst x. rewrite label_round in El. subst c'.
        rewrite G in Gx. injection Gx as <-. apply (edge_In_get _ _ _ _ Sn) in Ix. congruence.
  - intros p q Rp Rq. apply (lo_inj _ _ _ _ _ _ L); apply Nd; auto.
  - intros p R. apply (lo_fresh _ _ _ _ _ _ L), Nd; auto.
  - intros x X. apply (lo_rest _ _ _ _ _ _ L). intros i I. apply X, Nd; auto.
Qed.

Lemma copy_unf_gen : forall h root h0 h' f, copy h root h0 h' f ->
  (forall p t, unf h p t -> reach h root p -> unf h' (f p) t) /\
  (forall es ts, unfs h es ts -> (forall c q, In (c, q) es -> reach h root q) ->
     unfs h' (map (fun e => (fst e, f (snd e))) es) ts).
Proof.
  intros h root h0 h' f C. apply unf_unfs_ind.
  - intros p n es NN G S Us IH R. destruct (cp_node _ _ _ _ _ C p n R G) as [Nf Gf].
    change (T (nfin n) es) with (T (nfin (Node (nfin n) (map (fun e => (fst e, f (snd e))) (nedges n)))) es).
    constructor; auto; cbn; [apply esorted_map; auto|]. apply IH. intros c q I. eapply reach_step; eauto.
  - intros _. constructor.
  - intros c q t es ts Uq IHq Us IHs H. cbn. constructor.
    + apply IHq. apply (H c). left; auto.
    + apply IHs. intros c' q' I. apply (H c'). right; auto.
Qed.

Lemma copy_unf : forall h root h0 h' f p t, copy h root h0 h' f -> reach h root p -> unf h p t -> unf h' (f p) t.
Proof. intros. eapply copy_unf_gen; eauto. Qed.

Lemma copy_reach : forall h root h0 h' f t, copy h root h0 h' f -> unf h root t ->
  forall x, reach h' (f root) x <-> exists p, reach h root p /\ x = f p.
Proof.
  intros h root h0 h' f t C U x. split.
  - intros Rx. apply (closed_reach h' (fun x => exists p, reach h root p /\ x = f p) (f root) x); auto; [|exists root; split; auto using reach_refl].
    intros y n c q (p & R & ->) G I. destruct (unf_reach_alloc _ _ _ _ U R) as (_ & n0 & G0).
    destruct (cp_node _ _ _ _ _ C p n0 R G0) as [_ Gf]. rewrite G in Gf. injection Gf as ->. cbn in I.
    apply in_map_iff in I. destruct I as ([c' q'] & X & I). injection X as <- <-. exists q'. split; auto.
    eapply reach_step; eauto.
  - intros (p & R & ->). enough (reach h root p /\ reach h' (f root) (f p)) as [_ X] by exact X.
    apply (closed_reach h (fun p => reach h root p /\ reach h' (f root) (f p)) root p); auto; [|split; apply reach_refl].
    intros y n c q [Ry Rf] G I. split; [eapply reach_step; eauto|].
    destruct (cp_node _ _ _ _ _ C y n Ry G) as [_ Gf]. eapply reach_step; eauto. cbn.
    apply in_map_iff. exists (c, q). eauto.
Qed.
