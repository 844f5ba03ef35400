(** * SaveRoundProofs: saving dictionaries in which one can go round. *)
From Coq Require Import Sorting.Sorted.
From Verif Require Import Base Spec ModelDawg ModelSerial SpecDawg SpecSerial TreeProofs HeapProofs SerialProofs.
From Verif Require Import ModelQuery SpecAlike RoundProofs MirrorProofs.
Local Open Scope nat_scope.

(** ** How many are left *)
Lemma filter_le : forall A (f g : A -> bool) l, (forall x, g x = true -> f x = true) -> length (filter g l) <= length (filter f l).
Proof.
  intros A f g l H. induction l as [|x l IH]; cbn [filter]; [lia|]. destruct (g x) eqn:G; [rewrite (H x G); cbn [length]; lia|]. destruct (f x); cbn [length]; lia.
Qed.

Lemma filter_less : forall A (f g : A -> bool) l x, (forall x, g x = true -> f x = true) -> In x l -> f x = true -> g x = false -> length (filter g l) < length (filter f l).
Proof.
  intros A f g l x H I F G. induction l as [|y l IH]; [destruct I|]. cbn [filter]. destruct I as [->|I].
  - rewrite F, G. cbn [length]. pose proof (filter_le A f g l H). lia.
  - specialize (IH I). destruct (g y) eqn:Gy; [rewrite (H y Gy); cbn [length]; lia|]. destruct (f y); cbn [length]; lia.
Qed.

Definition heap_keys (h : heap) : list ptr := map fst h.
Definition room (keys ids : list N) : nat := length (filter (fun x => negb (set_mem x ids)) keys).

Lemma heap_keys_In : forall h p n, hget h p = Some n -> In p (heap_keys h).
Proof.
  induction h as [|[q o] h IH]; intros p n G; [discriminate|]. change ((if N.eqb p q then o else hget h p) = Some n) in G. unfold heap_keys. cbn [map fst In].
  destruct (N.eqb_spec p q) as [->|_]; [now left|]. right. exact (IH p n G).
Qed.

Lemma room_le : forall keys ids ids', (forall x, In x ids -> In x ids') -> room keys ids' <= room keys ids.
Proof.
  intros keys ids ids' H. apply filter_le. intros x X. apply Bool.negb_true_iff in X. apply Bool.negb_true_iff. destruct (set_mem x ids) eqn:M; [|reflexivity].
  apply set_mem_In, H, set_mem_In in M. congruence.
Qed.

Lemma room_less : forall keys ids ids' p, In p keys -> ~ In p ids -> In p ids' -> (forall x, In x ids -> In x ids') -> room keys ids' < room keys ids.
Proof.
  intros keys ids ids' p I N I' H. apply filter_less with (x := p); [|exact I| |].
  - intros x X. apply Bool.negb_true_iff in X. apply Bool.negb_true_iff. destruct (set_mem x ids) eqn:M; [|reflexivity]. apply set_mem_In, H, set_mem_In in M. congruence.
  - apply Bool.negb_true_iff. destruct (set_mem p ids) eqn:M; [|reflexivity]. apply set_mem_In in M. contradiction.
  - apply Bool.negb_false_iff. now apply set_mem_In.
Qed.

Definition heap_edges (h : heap) : list (N * char * N) :=
  flat_map (fun p => match hget h p with Some n => map (fun e => (p, fst e, snd e)) (nedges n) | None => [] end) (heap_keys h).

Definition among (e : N * char * N) (m : edge_map) : bool := if in_dec entry_dec e m then true else false.
Definition left_over (es m : list (N * char * N)) : nat := length (filter (fun e => negb (among e m)) es).

Lemma heap_edges_In : forall h e, real h e -> In e (heap_edges h).
Proof.
  intros h [[p c] q] (n & G & I). cbn [fst snd] in *. apply in_flat_map. exists p. split; [exact (heap_keys_In h p n G)|]. rewrite G. apply in_map_iff. exists (c, q). auto.
Qed.

Lemma among_In : forall e m, among e m = true <-> In e m.
Proof. intros e m. unfold among. destruct (in_dec entry_dec e m); split; auto; discriminate. Qed.

Lemma left_over_le : forall es m m', (forall e, In e m -> In e m') -> left_over es m' <= left_over es m.
Proof.
  intros es m m' H. apply filter_le. intros x X. apply Bool.negb_true_iff in X. apply Bool.negb_true_iff. destruct (among x m) eqn:M; [|reflexivity].
  apply among_In, H, among_In in M. congruence.
Qed.

Lemma left_over_less : forall es m m' e, In e es -> ~ In e m -> In e m' -> (forall e, In e m -> In e m') -> left_over es m' < left_over es m.
Proof.
  intros es m m' e I N I' H. apply filter_less with (x := e); [|exact I| |].
  - intros x X. apply Bool.negb_true_iff in X. apply Bool.negb_true_iff. destruct (among x m) eqn:M; [|reflexivity]. apply among_In, H, among_In in M. congruence.
  - apply Bool.negb_true_iff. destruct (among e m) eqn:M; [|reflexivity]. apply among_In in M. contradiction.
  - apply Bool.negb_false_iff. now apply among_In.
Qed.

(** ** The walks of to_protobuf end *)
Lemma nodes_ok : forall fuel h p ids finals, solid h p -> room (heap_keys h) ids < fuel ->
  exists ids' finals', collect_nodes fuel h p ids finals = Ok (ids', finals') /\
    In p ids' /\ (forall x, In x ids' -> In x ids \/ reach h p x) /\ collected h ids ids' finals finals'.
Proof.
  induction fuel as [|fuel IH]; intros h p ids finals U H; [lia|].
  rewrite collect_nodes_S. destruct (set_mem p ids) eqn:M.
  { apply set_mem_In in M. exists ids, finals. split; auto. split; auto. split; auto using collected_refl. }
  assert (NI : ~ In p ids) by (rewrite <- set_mem_In; congruence). clear M.
  destruct (U [] p (path_nil h p)) as (Np & n & G & So). rewrite (read_ok _ _ _ Np G). cbn [rbind].
  assert (Ro : room (heap_keys h) (id_insert p ids) < fuel).
  { assert (X : room (heap_keys h) (id_insert p ids) < room (heap_keys h) ids); [|lia]. apply (room_less _ _ _ p); [now apply (heap_keys_In h p n)|exact NI|now apply id_insert_In; left|intros x I; apply id_insert_In; now right]. }
  assert (Each : forall es ids finals, (forall c q, In (c, q) es -> In (c, q) (nedges n)) -> room (heap_keys h) ids < fuel ->
    exists ids' finals', nodes_each fuel h es ids finals = Ok (ids', finals') /\
      (forall c q, In (c, q) es -> In q ids') /\ (forall x, In x ids' -> In x ids \/ reach h p x) /\
      collected h ids ids' finals finals').
  { clear Ro NI ids finals H. induction es as [|[c q] es IHs]; intros ids finals Sub Hh.
    - exists ids, finals. split; auto. split; [intros ? ? []|]. split; auto using collected_refl.
    - destruct (IH h q ids finals (solid_step h p n c q U G (Sub c q (or_introl eq_refl))) Hh) as (i1 & f1 & E1 & Iq & R1 & C1).
      destruct (IHs i1 f1) as (i2 & f2 & E2 & I2 & R2 & C2).
      { intros; apply Sub; right; auto. }
      { pose proof (room_le (heap_keys h) ids i1 (co_old _ _ _ _ _ C1)). lia. }
      exists i2, f2. cbn [nodes_each]. fold (nodes_each fuel h). rewrite E1. cbn [rbind]. rewrite E2.
      split; auto. split; [|split].
      + intros c' q' [X|I]; [injection X as <- <-; apply (co_old _ _ _ _ _ C2); auto | eauto].
      + intros x I. destruct (R2 x I) as [J|J]; auto. destruct (R1 x J) as [K|K]; auto.
        right. eapply reach_cons; eauto. apply Sub. left; auto.
      + eapply collected_trans; eauto. }
  destruct (Each (nedges n) (id_insert p ids) (if nfin n then id_insert p finals else finals)) as (i2 & f2 & E2 & I2 & R2 & C2); auto.
  exists i2, f2. split; [exact E2|].
  assert (Ip : In p i2) by (apply (co_old _ _ _ _ _ C2), id_insert_In; auto).
  split; auto. split.
  { intros x I. destruct (R2 x I) as [J|J]; auto. apply id_insert_In in J. destruct J as [->|J]; auto using reach_refl. }
  constructor.
  - intros x I. apply (co_old _ _ _ _ _ C2), id_insert_In; auto.
  - intros x n' c q I J Gx Ie. destruct (N.eq_dec x p) as [->|Nx].
    + rewrite G in Gx. injection Gx as <-. eauto.
    + eapply (co_succ _ _ _ _ _ C2); eauto. rewrite id_insert_In. tauto.
  - intros x. rewrite (co_fin _ _ _ _ _ C2). rewrite id_insert_In.
    destruct (N.eq_dec x p) as [->|Nx].
    + destruct (nfin n) eqn:Fn; [rewrite id_insert_In|].
      * split; [|intros _; left; auto]. intros _. right. split; auto. split; auto. exists n; auto.
      * split; [intros [I|(_ & X & _)]; [auto|tauto]|]. intros [I|(_ & _ & m & Gm & Fm)]; auto. congruence.
    + destruct (nfin n); [rewrite id_insert_In|]; tauto.
  - intros S. apply (co_sorted _ _ _ _ _ C2), id_insert_sorted; auto.
  - intros S. apply (co_fsorted _ _ _ _ _ C2). destruct (nfin n); auto using id_insert_sorted.
Qed.

Lemma nodes_all : forall fuel h p, solid h p -> room (heap_keys h) [] < fuel ->
  exists ids finals, collect_nodes fuel h p [] [] = Ok (ids, finals) /\
    StronglySorted N.lt ids /\ StronglySorted N.lt finals /\
    (forall x, In x ids <-> reach h p x) /\
    (forall x, In x finals <-> reach h p x /\ exists n, hget h x = Some n /\ nfin n = true).
Proof.
  intros fuel h p U H. destruct (nodes_ok fuel h p [] [] U H) as (ids & finals & E & Ip & R & C).
  assert (I : forall x, In x ids <-> reach h p x).
  { intros x. split; [intros I; destruct (R x I) as [[]|]; auto|].
    intros Rx. apply (closed_reach h (fun y => In y ids) p x); auto. intros y n c q. intros. eapply (co_succ _ _ _ _ _ C); eauto. }
  exists ids, finals. split; auto. split; [apply C; constructor|]. split; [apply C; constructor|]. split; auto.
  intros x. rewrite (co_fin _ _ _ _ _ C), I. cbn. intuition.
Qed.

Lemma edges_ok : forall fuel h p m, solid h p -> left_over (heap_edges h) m < fuel -> (forall e, In e m -> real h e) ->
  exists m', collect_edges fuel h p m = Ok m' /\ has_all h p m' /\
    (forall e, In e m' -> In e m \/ reach h p (fst (fst e))) /\ traced h m m'.
Proof.
  induction fuel as [|fuel IH]; intros h p m U H Re; [lia|].
  rewrite collect_edges_S.
  destruct (U [] p (path_nil h p)) as (Np & n & G & So). rewrite (read_ok _ _ _ Np G). cbn [rbind].
  assert (Each : forall es m, (forall c q, In (c, q) es -> In (c, q) (nedges n)) -> left_over (heap_edges h) m < S fuel -> (forall e, In e m -> real h e) ->
    exists m', edges_each fuel h p es m = Ok m' /\
      (forall c q, In (c, q) es -> In (p, c, q) m') /\
      (forall e, In e m' -> In e m \/ reach h p (fst (fst e))) /\ traced h m m').
  { clear m H Re. induction es as [|[c q] es IHs]; intros m Sub Hh Re.
    - exists m. split; auto. split; [intros ? ? []|]. split; auto using traced_refl.
    - assert (Icq : In (c, q) (nedges n)) by (apply Sub; left; auto).
      cbn [edges_each]. fold (edges_each fuel h p). destruct (edges_contains m (p, c)) eqn:Ec.
      + apply edges_contains_In in Ec. destruct Ec as [v Iv].
        assert (v = q) as -> by (eapply real_fun; eauto).
        destruct (IHs m) as (m2 & E2 & I2 & R2 & C2); auto.
        { intros; apply Sub; right; auto. }
        exists m2. split; auto. split; [|split; auto].
        intros c' q' [X|I]; [injection X as <- <-; apply (tr_old _ _ _ C2); auto | eauto].
      + assert (Nc : forall v', ~ In (p, c, v') m).
        { intros v' I. assert (edges_contains m (p, c) = true) by (apply edges_contains_In; eauto). congruence. }
        assert (Re1 : forall e, In e (edges_insert m (p, c) q) -> real h e).
        { intros e I. apply edges_insert_In in I. destruct I as [->|I]; auto. exists n. auto. }
        assert (Le : left_over (heap_edges h) (edges_insert m (p, c) q) < left_over (heap_edges h) m).
        { apply (left_over_less _ _ _ (p, c, q)); [apply heap_edges_In; exists n; auto|apply Nc|apply edges_insert_In; now left|intros e I; apply edges_insert_In; now right]. }
        destruct (IH h q (edges_insert m (p, c) q) (solid_step h p n c q U G Icq) ltac:(lia) Re1) as (m1 & E1 & A1 & R1 & C1).
        destruct (IHs m1) as (m2 & E2 & I2 & R2 & C2); auto.
        { intros; apply Sub; right; auto. }
        { pose proof (left_over_le (heap_edges h) _ _ (tr_old _ _ _ C1)). lia. }
        { apply (tr_real _ _ _ C1); auto. }
        exists m2. rewrite E1. cbn [rbind]. rewrite E2. split; auto. split; [|split].
        * intros c' q' [X|I]; [injection X as <- <- | eauto].
          apply (tr_old _ _ _ C2), (tr_old _ _ _ C1), edges_insert_In; auto.
        * intros e I. destruct (R2 e I) as [J|J]; auto. destruct (R1 e J) as [K|K].
          -- apply edges_insert_In in K. destruct K as [->|K]; auto. right. apply reach_refl.
          -- right. eapply reach_cons; eauto.
        * eapply traced_trans; [|exact C2]. constructor.
          -- intros e I. apply (tr_old _ _ _ C1), edges_insert_In; auto.
          -- intros _. apply (tr_real _ _ _ C1); auto.
          -- intros e I NI. destruct (in_dec entry_dec e (edges_insert m (p, c) q)) as [J|J].
             ++ apply edges_insert_In in J. destruct J as [->|J]; [|tauto]. exact A1.
             ++ apply (tr_succ _ _ _ C1); auto.
          -- intros S. apply (tr_sorted _ _ _ C1), edges_insert_sorted; auto. }
  destruct (Each (nedges n) m) as (m2 & E2 & I2 & R2 & C2); auto.
  exists m2. split; auto. split; [|split; auto].
  intros n' c q G' I. rewrite G in G'. injection G' as <-. auto.
Qed.

Lemma edges_all : forall fuel h p, solid h p -> left_over (heap_edges h) [] < fuel ->
  exists m, collect_edges fuel h p [] = Ok m /\ keys_sorted m /\
    forall x c q, In (x, c, q) m <-> reach h p x /\ real h (x, c, q).
Proof.
  intros fuel h p U H.
  destruct (edges_ok fuel h p [] U H) as (m & E & A & R & C); [intros ? []|].
  assert (Re : forall e, In e m -> real h e) by (apply C; intros ? []).
  exists m. split; auto. split; [apply C; constructor|]. intros x c q. split.
  - intros I. split; auto. destruct (R _ I) as [[]|X]; auto.
  - intros [Rx (n & G & I)]. cbn in *.
    assert (All : has_all h x m).
    { apply (closed_reach h (fun y => has_all h y m) p x); auto.
      intros y ny d z Hy Gy Iz. specialize (Hy _ _ _ Gy Iz).
      apply (tr_succ _ _ _ C (y, d, z)); auto. }
    eapply All; eauto.
Qed.

Lemma saved_ok : forall fuel h d, solid h (d_root d) -> room (heap_keys h) [] < fuel -> left_over (heap_edges h) [] < fuel ->
  exists m, to_protobuf fuel h d = Ok m /\ describes h d m.
Proof.
  intros fuel h d U H H2. unfold to_protobuf.
  destruct (nodes_all fuel h _ U H) as (ids & finals & E1 & S1 & S2 & I1 & I2).
  destruct (edges_all fuel h _ U H2) as (es & E2 & S3 & I3).
  rewrite E1. cbn [rbind]. rewrite E2. cbn [rbind]. eexists. split; [reflexivity|].
  constructor; cbn; auto using sorted_N_NoDup.
  - intros e. rewrite in_map_iff. split.
    + intros ([[x c] q] & <- & I). apply I3 in I. destruct I as (Rx & n & G & I). exists x, c, q. cbn. eauto.
    + intros (x & c & q & -> & Rx & n & G & I). exists (x, c, q). split; auto. apply I3. split; auto. exists n; auto.
  - rewrite map_map. cbn. clear - S3. unfold keys_sorted in S3.
    induction S3 as [|[[x c] q] es S IH F]; cbn; constructor; auto.
    rewrite label_round. intros I. apply in_map_iff in I. destruct I as ([[x' c'] q'] & X & I). cbn in X.
    rewrite label_round in X. injection X as -> ->. rewrite Forall_forall in F. specialize (F _ I). cbn in F.
    eapply key_irrefl; eauto.
Qed.

Lemma saved : forall h d, solid h (d_root d) -> exists m, runs_to (fun fuel => to_protobuf fuel h d) m /\ describes h d m.
Proof.
  intros h d U. set (k := S (room (heap_keys h) [] + left_over (heap_edges h) [])). destruct (saved_ok k h d U ltac:(unfold k; lia) ltac:(unfold k; lia)) as (m & E & D).
  exists m. split; [|exact D]. exists k. intros fuel L. eapply to_protobuf_mono; eauto.
Qed.

(** ** Reading back *)
Lemma read_back : forall alloc h d m h1, allocator alloc -> solid h (d_root d) -> describes h d m ->
  exists f h', from_protobuf alloc h1 m = Ok (h', Builder (Dawg (f (d_root d)) (d_size d)) [] None) /\
    copy h (d_root d) h1 h' f.
Proof.
  intros alloc h d m h1 A U D.
  destruct (from_protobuf_ok alloc h1 m A (describes_well_formed _ _ _ D)) as (f & h' & E & L).
  rewrite (ds_root _ _ _ D), (ds_size _ _ _ D) in E. exists f, h'. split; auto.
  pose proof (ds_nodes _ _ _ D) as Nd.
  constructor.
  - intros p n R G. assert (I : In p (m_nodes m)) by (apply Nd; auto).
    split; [apply (lo_fresh _ _ _ _ _ _ L); auto|].
    destruct (lo_node _ _ _ _ _ _ L p I) as ([fin es] & G' & Fn & So & Ed). cbn in *. rewrite G'. f_equal. f_equal.
    + subst fin. destruct (set_mem p (m_finals m)) eqn:M.
      * apply set_mem_In in M. apply (ds_finals _ _ _ D) in M. destruct M as (_ & n' & Gn & Fn). congruence.
      * destruct (nfin n) eqn:Fn; auto. assert (X : In p (m_finals m)) by (apply (ds_finals _ _ _ D); eauto).
        apply set_mem_In in X. congruence.
    + destruct R as (w & Pw). destruct (U w p Pw) as (_ & n' & Gn & Sn). rewrite G in Gn. injection Gn as <-. assert (R : reach h (d_root d) p) by (exists w; exact Pw).
      apply edges_ext; auto using esorted_map. intros c. rewrite edge_get_map.
      destruct (edge_get (nedges n) c) as [q|] eqn:Eg.
      * apply Ed. exists (EdgeMsg p (label_to_msg c) q). cbn. rewrite label_round. split; auto.
        apply (ds_edges _ _ _ D). exists p, c, q. split; auto. split; auto. exists n. split; auto. apply edge_get_In; auto.
      * destruct (edge_get es c) as [q'|] eqn:Eg'; auto. apply Ed in Eg'.
        destruct Eg' as (e & Ie & Es & El & Et). apply (ds_edges _ _ _ D) in Ie.
        destruct Ie as (x & c' & q & -> & Rx & nx & Gx & Ix). cbn in *. subst x. rewrite label_round in El. subst c'.
        rewrite G in Gx. injection Gx as <-. apply (edge_In_get _ _ _ _ Sn) in Ix. congruence.
  - intros p q Rp Rq. apply (lo_inj _ _ _ _ _ _ L); apply Nd; auto.
  - intros p R. apply (lo_fresh _ _ _ _ _ _ L), Nd; auto.
  - intros x X. apply (lo_rest _ _ _ _ _ _ L). intros i I. apply X, Nd; auto.
Qed.


(** ** A copy is like what it was copied from *)
Lemma copy_like : forall h root h0 h' f s, copy h root h0 h' f -> solid h root -> alike h (Dawg root s) h' (Dawg (f root) s).
Proof.
  intros h root h0 h' f s C S. set (M := fun p p' => reach h root p /\ p' = f p).
  assert (HM : forall p p', M p p' -> p <> null /\ p' <> null /\ both (nodes_like M) (read h p) (read h' p')).
  { intros p p' [R ->]. pose proof R as (w & P). destruct (S w p P) as (N & n & G & So). destruct (cp_node _ _ _ _ _ C p n R G) as (N' & G'). split; [exact N|]. split; [exact N'|].
    rewrite (read_ok _ _ _ N G), (read_ok _ _ _ N' G'). cbn. split; [reflexivity|]. cbn [nedges].
    assert (X : forall c q, In (c, q) (nedges n) -> reach h root q) by (intros c q I; eapply reach_step; eauto). clear -X. unfold edges_like.
    induction (nedges n) as [|[c q] es IH]; cbn [map]; constructor; [|apply IH; intros d r I; apply (X d); now right]. split; [reflexivity|]. cbn [fst snd]. split; [|reflexivity]. apply (X c). now left. }
  assert (M0 : M root (f root)) by (split; [apply reach_refl|reflexivity]). constructor.
  - reflexivity.
  - intros w. exact (contains_like h h' M HM root (f root) s s w M0).
  - intros fuel. exact (iterate_like h h' M HM fuel root (f root) s M0).
  - intros fuel. exact (dawg_hash_like h h' M HM fuel root (f root) s M0).
  - intros R rt alg fuel q n. cbn [d_root]. exact (query_all_like h h' M HM rt alg q n fuel root (f root) M0).
Qed.

Lemma copy_all_nodes : forall h root h0 h' f, copy h root h0 h' f -> solid h root -> forall fuel,
  both (fun _ _ => True) (all_nodes fuel h (Dawg root 0)) (all_nodes fuel h' (Dawg (f root) 0)).
Proof.
  intros h root h0 h' f C S fuel. set (M := fun p p' => reach h root p /\ p' = f p).
  assert (HM : forall p p', M p p' -> p <> null /\ p' <> null /\ both (nodes_like M) (read h p) (read h' p')).
  { intros p p' [R ->]. pose proof R as (w & P). destruct (S w p P) as (N & n & G & So). destruct (cp_node _ _ _ _ _ C p n R G) as (N' & G'). split; [exact N|]. split; [exact N'|].
    rewrite (read_ok _ _ _ N G), (read_ok _ _ _ N' G'). cbn. split; [reflexivity|]. cbn [nedges].
    assert (X : forall c q, In (c, q) (nedges n) -> reach h root q) by (intros c q I; eapply reach_step; eauto). clear -X. unfold edges_like.
    induction (nedges n) as [|[c q] es IH]; cbn [map]; constructor; [|apply IH; intros d r I; apply (X d); now right]. split; [reflexivity|]. cbn [fst snd]. split; [|reflexivity]. apply (X c). now left. }
  unfold all_nodes. cbn [d_root]. apply (all_nodes_loop_like h h' M HM). constructor; [|constructor]. split; [apply reach_refl|reflexivity].
Qed.

(** ** What the destructor frees, if it ends *)
Lemma reach_inv : forall h p q, reach h p q -> q = p \/ exists n c r, hget h p = Some n /\ In (c, r) (nedges n) /\ reach h r q.
Proof.
  intros h p q (w & P). destruct P as [p|p n c r w q G I P]; [now left|]. right. exists n, c, r. split; [exact G|]. split; [exact I|]. exists w. exact P.
Qed.

Lemma reach_via : forall h p n c q r, hget h p = Some n -> In (c, q) (nedges n) -> reach h q r -> reach h p r.
Proof. intros h p n c q r G I (w & P). exists (c :: w). econstructor; eauto. Qed.

Lemma all_nodes_out : forall fuel h P N out, (forall p, In p P -> solid h p) -> all_nodes_loop fuel h P N = Ok out -> NoDup N ->
  NoDup out /\ (forall q, In q out <-> In q N \/ exists p, In p P /\ reach h p q).
Proof.
  induction fuel as [|fuel IH]; intros h P N out S E ND; cbn [all_nodes_loop] in E; [discriminate|]. destruct P as [|p P].
  - injection E as <-. split; [exact ND|]. intros q. split; [auto|]. intros [I|(p & [] & _)]; exact I.
  - destruct (S p (or_introl eq_refl) [] p (path_nil h p)) as (Np & n & G & So). rewrite (read_ok _ _ _ Np G) in E. cbn [rbind] in E.
    assert (Ins : NoDup (set_insert p N) /\ forall q, In q (set_insert p N) <-> In q N \/ q = p).
    { unfold set_insert. destruct (set_mem p N) eqn:M; [apply set_mem_In in M; split; [exact ND|intros q; split; [auto|intros [I| ->]; auto]]|].
      assert (NI : ~ In p N) by (intros I; apply set_mem_In in I; congruence). split.
      - clear -ND NI. induction ND as [|x l X ND IH]; cbn; [constructor; [auto|constructor]|]. constructor; [|apply IH; intros I; apply NI; now right].
        intros I. apply in_app_iff in I. destruct I as [I|[->|[]]]; [contradiction|]. apply NI. now left.
      - intros q. rewrite in_app_iff. cbn. split; [intros [I|[->|[]]]; auto|intros [I| ->]; auto]. }
    destruct Ins as (ND' & Ii). apply IH in E; [|intros q I|exact ND'].
    + destruct E as (ND2 & I2). split; [exact ND2|]. intros q. rewrite I2, Ii. split.
      * intros [[I| ->]|(r & I & R)]; [now left|right; exists p; split; [now left|apply reach_refl]|].
        right. apply in_app_iff in I. destruct I as [I|I]; [exists r; split; [now right|exact R]|]. apply in_map_iff in I. destruct I as ([c r'] & <- & I). exists p. split; [now left|]. eapply reach_via; eauto.
      * intros [I|(r & [->|I] & R)]; [auto| |right; exists r; split; [apply in_app_iff; now left|exact R]].
        apply reach_inv in R. destruct R as [->|(m & c & r' & Gm & I & R)]; [auto|]. right. exists r'. split; [|exact R]. apply in_app_iff. right. rewrite G in Gm. injection Gm as <-. apply in_map_iff. exists (c, r'). auto.
    + apply in_app_iff in I. destruct I as [I|I]; [apply S; now right|]. apply in_map_iff in I. destruct I as ([c r] & <- & I). exact (solid_step h p n c r (S p (or_introl eq_refl)) G I).
Qed.

Lemma destroy_out : forall fuel h d, solid h (d_root d) -> match all_nodes fuel h d with
  | Ok nodes => exists h', destroy_dawg fuel h d = Ok h' /\ (forall p, reach h (d_root d) p -> hget h' p = None) /\ (forall p, ~ reach h (d_root d) p -> hget h' p = hget h p)
  | OOF => destroy_dawg fuel h d = OOF
  | UB => False end.
Proof.
  intros fuel h d S. unfold destroy_dawg. destruct (all_nodes fuel h d) as [nodes| |] eqn:E; cbn [rbind]; [| |reflexivity].
  - unfold all_nodes in E. apply all_nodes_out in E; [|intros p [<-|[]]; exact S|constructor]. destruct E as (ND & I).
    assert (I' : forall q, In q nodes <-> reach h (d_root d) q). { intros q. rewrite I. split; [intros [[]|(p & [<-|[]] & R)]; exact R|]. intros R. right. exists (d_root d). split; [now left|exact R]. }
    destruct (delete_all_ok nodes h ND) as (h' & E' & D1 & D2).
    + intros p J. apply I' in J. destruct J as (w & P). destruct (S w p P) as (Np & n & G & _). split; [exact Np|]. unfold allocated. congruence.
    + exists h'. split; [exact E'|]. split; intros p R; [apply D1, I', R|apply D2; rewrite I'; exact R].
  - unfold all_nodes in E. revert E. assert (X : forall fuel P N, (forall p, In p P -> solid h p) -> all_nodes_loop fuel h P N <> UB); [|apply X; intros p [<-|[]]; exact S].
    clear. induction fuel as [|fuel IH]; intros P N S; cbn [all_nodes_loop]; [discriminate|]. destruct P as [|p P]; [discriminate|].
    destruct (S p (or_introl eq_refl) [] p (path_nil h p)) as (Np & n & G & So). rewrite (read_ok _ _ _ Np G). cbn [rbind]. apply IH. intros q I.
    apply in_app_iff in I. destruct I as [I|I]; [apply S; now right|]. apply in_map_iff in I. destruct I as ([c r] & <- & I). exact (solid_step h p n c r (S p (or_introl eq_refl)) G I).
Qed.

Lemma copy_path : forall h root h0 h' f, copy h root h0 h' f -> solid h root -> forall w p q', reach h root p ->
  (path h' (f p) w q' <-> exists q, path h p w q /\ q' = f q).
Proof.
  intros h root h0 h' f C S. induction w as [|c w IH]; intros p q' R.
  - split; [intros P; inversion P; subst; exists p; split; [constructor|reflexivity]|]. intros (q & P & ->). inversion P; subst. constructor.
  - pose proof R as (v & Pv). destruct (S v p Pv) as (N & n & G & So). destruct (cp_node _ _ _ _ _ C p n R G) as (N' & G'). split.
    + intros P. inversion P as [|? n' ? r ? ? Gn I P']; subst. rewrite G' in Gn. injection Gn as <-. cbn [nedges] in I. apply in_map_iff in I. destruct I as ([c' r'] & X & I). injection X as <- <-.
      apply IH in P'; [|eapply reach_step; eauto]. destruct P' as (q & P' & ->). exists q. split; [econstructor; eauto|reflexivity].
    + intros (q & P & ->). inversion P as [|? n' ? r ? ? Gn I P']; subst. rewrite G in Gn. injection Gn as <-. econstructor; [exact G'| |].
      * cbn [nedges]. apply in_map_iff. exists (c, r). split; [reflexivity|exact I].
      * apply IH; [eapply reach_step; eauto|]. eauto.
Qed.

Lemma copy_solid : forall h root h0 h' f, copy h root h0 h' f -> solid h root -> solid h' (f root).
Proof.
  intros h root h0 h' f C S w q' P. apply (copy_path _ _ _ _ _ C S w root q' (reach_refl h root)) in P. destruct P as (q & P & ->). destruct (S w q P) as (N & n & G & So).
  destruct (cp_node _ _ _ _ _ C q n (ex_intro _ w P) G) as (N' & G'). split; [exact N'|]. eexists. split; [exact G'|]. cbn [nedges]. now apply esorted_map.
Qed.

(** Saving and reading back, all at once. *)
Lemma saved_and_read : forall alloc h d m h1, allocator alloc -> solid h (d_root d) -> describes h d m ->
  exists h2 b, from_protobuf alloc h1 m = Ok (h2, b) /\ solid h2 (d_root (b_dawg b)) /\ alike h d h2 (b_dawg b) /\
    (forall w, accepts_from h2 (d_root (b_dawg b)) w <-> accepts_from h (d_root d) w) /\
    (forall p, allocated h1 p -> hget h2 p = hget h1 p) /\
    (forall fuel, match destroy_dawg fuel h d with
       | Ok _ => exists h3, destroy fuel h2 b = Ok h3 /\ same_heap h3 h1
       | UB => False
       | OOF => destroy fuel h2 b = OOF end).
Proof.
  intros alloc h d m h1 A S D. destruct (read_back alloc h d m h1 A S D) as (f & h2 & E & C). exists h2. eexists. split; [exact E|]. cbn [b_dawg d_root].
  pose proof (copy_solid _ _ _ _ _ C S) as S2. split; [exact S2|]. destruct d as [root s]. cbn [d_root d_size] in *. split; [exact (copy_like _ _ _ _ _ s C S)|]. split; [|split].
  - intros w. split.
    + intros (q' & n' & P & G' & F). apply (copy_path _ _ _ _ _ C S w root q' (reach_refl h root)) in P. destruct P as (q & P & ->). destruct (S w q P) as (N & n & G & So).
      destruct (cp_node _ _ _ _ _ C q n (ex_intro _ w P) G) as (N' & G2). rewrite G' in G2. injection G2 as ->. exists q, n. auto.
    + intros (q & n & P & G & F). destruct (cp_node _ _ _ _ _ C q n (ex_intro _ w P) G) as (N' & G2). exists (f q). eexists. split; [apply (copy_path _ _ _ _ _ C S w root (f q) (reach_refl h root)); eauto|]. split; [exact G2|exact F].
  - intros p Al. apply (cp_rest _ _ _ _ _ C). intros q R ->. apply Al. apply (cp_fresh _ _ _ _ _ C q R).
  - intros fuel. pose proof (copy_all_nodes _ _ _ _ _ C S fuel) as B. pose proof (destroy_out fuel h (Dawg root s) S) as D1. pose proof (destroy_out fuel h2 (Dawg (f root) s) S2) as D2.
    unfold destroy, clean_up. cbn [b_work b_dawg rbind]. change (all_nodes fuel h (Dawg root 0)) with (all_nodes fuel h (Dawg root s)) in B. change (all_nodes fuel h2 (Dawg (f root) 0)) with (all_nodes fuel h2 (Dawg (f root) s)) in B.
    destruct (all_nodes fuel h (Dawg root s)), (all_nodes fuel h2 (Dawg (f root) s)); cbn in B; try contradiction.
    + destruct D1 as (hx & -> & _). destruct D2 as (h3 & -> & F1 & F2). exists h3. split; [reflexivity|]. cbn [d_root] in *.
      assert (Rc : forall x, reach h2 (f root) x <-> exists p, reach h root p /\ x = f p).
      { intros x. split; [intros (w & P); apply (copy_path _ _ _ _ _ C S w root x (reach_refl h root)) in P; destruct P as (q & P & ->); exists q; split; [exists w; exact P|reflexivity]|].
        intros (p & (w & P) & ->). exists w. apply (copy_path _ _ _ _ _ C S w root (f p) (reach_refl h root)). eauto. }
      intros x. destruct (in_dec N.eq_dec x (map f (m_nodes m))) as [J|J].
      * apply in_map_iff in J. destruct J as (p & <- & J). apply (ds_nodes _ _ _ D) in J. cbn [d_root] in J. rewrite (F1 (f p)); [symmetry; exact (cp_fresh _ _ _ _ _ C p J)|]. apply Rc. eauto.
      * assert (Nx : forall p, reach h root p -> x <> f p) by (intros p R ->; apply J, in_map, (ds_nodes _ _ _ D), R).
        rewrite F2; [exact (cp_rest _ _ _ _ _ C x Nx)|]. intros R. apply Rc in R. destruct R as (p & R & ->). exact (Nx p R eq_refl).
    + rewrite D1, D2. reflexivity.
Qed.
