(** * StepsProofs: threads that use dictionaries. *)
From Coq Require Import Permutation Relations Wf_nat.
From Verif Require Import Base Spec ModelHash ModelTransducer ModelDawg ModelQuery ModelSerial SpecDawg TreeProofs HeapProofs BuildProofs BuildProofs2
  IterProofs DawgProofs ModelSteps SpecSteps StepsAlone PropsDawg.
Set Implicit Arguments. Unset Strict Implicit.
Local Open Scope nat_scope.

(** ** A memory that other memories share *)
Lemma hget_cons q n h p : hget ((q, n) :: h) p = if N.eqb p q then n else hget h p.
Proof. reflexivity. Qed.
Lemma hget_app v hs a : hget (v ++ hs) a = if existsb (N.eqb a) (map fst v) then hget v a else hget hs a.
Proof.
  induction v as [|[q n] v IH]; [reflexivity|]. cbn [app map fst existsb]. rewrite !hget_cons.
  destruct (N.eqb a q); [reflexivity|]. exact IH.
Qed.
Lemma hget_some_app v hs a n : hget v a = Some n -> hget (v ++ hs) a = Some n.
Proof.
  intros G. rewrite hget_app. destruct (existsb (N.eqb a) (map fst v)) eqn:E; [exact G|]. exfalso.
  induction v as [|[q m] v IH]; [discriminate|]. cbn [map fst existsb] in E. apply orb_false_elim in E. destruct E as [E1 E2].
  rewrite hget_cons, E1 in G. auto.
Qed.
Lemma existsb_In a l : existsb (N.eqb a) l = true <-> In a l.
Proof.
  rewrite existsb_exists. split; [intros (x & I & E); apply N.eqb_eq in E; congruence|].
  intros I. exists a. split; [exact I|apply N.eqb_refl].
Qed.
Lemma hget_app_old v hs a : ~ In a (map fst v) -> hget (v ++ hs) a = hget hs a.
Proof.
  intros N. rewrite hget_app. destruct (existsb (N.eqb a) (map fst v)) eqn:E; [|reflexivity].
  apply existsb_In in E. contradiction.
Qed.
Lemma hget_app_new v hs a : In a (map fst v) -> hget (v ++ hs) a = hget v a.
Proof. intros I. rewrite hget_app. apply existsb_In in I. now rewrite I. Qed.
Lemma hget_no_event v a : ~ In a (map fst v) -> hget v a = None.
Proof. intros N. rewrite <- (app_nil_r v). now rewrite hget_app_old. Qed.

Definition sub (u v : heap) : Prop := forall a n, hget u a = Some n -> hget v a = Some n.
Lemma sub_event ev u v : sub u v -> sub (ev ++ u) (ev ++ v).
Proof.
  intros S a n. rewrite !hget_app. destruct (existsb (N.eqb a) (map fst ev)); auto.
Qed.
Lemma there_sub u v a n : sub u v -> there u a = Some n -> there v a = Some n.
Proof. unfold there. destruct (N.eqb a null); [discriminate|]. auto. Qed.
Lemma there_some_app v hs a n : there v a = Some n -> there (v ++ hs) a = Some n.
Proof. unfold there. destruct (N.eqb a null); [discriminate|]. apply hget_some_app. Qed.

(** What a thread has allocated itself, [v], has nothing to do with what was there
    before, [hs]. *)
Definition sep (v hs : heap) : Prop := forall a, In a (map fst v) -> hget hs a = None.
Lemma sep_sub v hs : sep v hs -> sub hs (v ++ hs).
Proof.
  intros S a n G. rewrite hget_app_old; [exact G|]. intros I. apply S in I. congruence.
Qed.
Lemma sep_free v hs a : sep v hs -> hget (v ++ hs) a = None -> hget v a = None /\ hget hs a = None.
Proof.
  intros S G. destruct (existsb (N.eqb a) (map fst v)) eqn:E.
  - apply existsb_In in E. split; [|now apply S]. now rewrite hget_app_new in G.
  - assert (N : ~ In a (map fst v)) by (rewrite <- existsb_In; congruence).
    split; [now apply hget_no_event|]. now rewrite hget_app_old in G.
Qed.

(** ** A program with a memory of its own

    It may read everything, but writes and deletes only its own nodes. *)
Inductive lstep {A} (hs : heap) : action A * heap -> action A * heap -> Prop :=
| l_look a k v n : there (v ++ hs) a = Some n -> lstep hs (Look a k, v) (k n, v)
| l_store a n k v n0 : there v a = Some n0 -> lstep hs (Store a n k, v) (k, hset v a n)
| l_make n k v a : a <> null -> hget (v ++ hs) a = None -> lstep hs (Make n k, v) (k a, hset v a n)
| l_drop a k v n0 : there v a = Some n0 -> lstep hs (Drop a k, v) (k, hdel v a)
| l_bad_look a k v : there (v ++ hs) a = None -> lstep hs (Look a k, v) (Wrong, v)
| l_bad_store a n k v : there v a = None -> lstep hs (Store a n k, v) (Wrong, v)
| l_bad_drop a k v : there v a = None -> lstep hs (Drop a k, v) (Wrong, v).
Definition lsteps {A} (hs : heap) := clos_refl_trans_1n _ (@lstep A hs).

Fixpoint split {A} (alloc : heap -> ptr) (hs : heap) (p : action A) (v : heap) : res (heap * A) :=
  match p with
  | Done x => Ok (v, x)
  | Wrong => UB
  | Spent => OOF
  | Look a k => done_or (there (v ++ hs) a) (fun n => split alloc hs (k n) v)
  | Store a n k => done_or (there v a) (fun _ => split alloc hs k (hset v a n))
  | Make n k => split alloc hs (k (alloc (v ++ hs))) (hset v (alloc (v ++ hs)) n)
  | Drop a k => done_or (there v a) (fun _ => split alloc hs k (hdel v a))
  end.

Lemma split_andthen {A B} alloc hs (p : action A) (f : A -> action B) : forall v,
  split alloc hs (andthen p f) v = (do (v1, x) <- split alloc hs p v; split alloc hs (f x) v1).
Proof.
  induction p as [x| | |a k IH|a n k IH|n k IH|a k IH]; intros v; cbn [andthen split]; try reflexivity.
  - destruct (there (v ++ hs) a); cbn; auto.
  - destruct (there v a); cbn; auto.
  - apply IH.
  - destruct (there v a); cbn; auto.
Qed.

(** In the whole memory it does the same. *)
Lemma split_alone {A} alloc hs (p : action A) : forall v v' x, split alloc hs p v = Ok (v', x) ->
  alone alloc p (v ++ hs) = Ok (v' ++ hs, x).
Proof.
  induction p as [y| | |a k IH|a n k IH|n k IH|a k IH]; intros v v' x E; cbn [split alone] in *; try discriminate.
  - injection E as <- <-. reflexivity.
  - destruct (there (v ++ hs) a); [|discriminate]. now apply IH.
  - destruct (there v a) eqn:T; [|discriminate]. rewrite (there_some_app hs T). cbn. apply (IH _ _ _ E).
  - apply (IH _ _ _ _ E).
  - destruct (there v a) eqn:T; [|discriminate]. rewrite (there_some_app hs T). cbn. apply (IH _ _ _ E).
Qed.

(** ** Programs that need only a part of the memory *)

(** The changes [ev] are to nodes in [u] and to addresses that were free. *)
Definition touches (hs u v ev : heap) : Prop := forall a, In a (map fst ev) ->
  hget u a <> None \/ (hget v a = None /\ hget hs a = None).

(** The allocator that the part of the memory sees. *)
Definition seen_from (alloc : heap -> ptr) (hs u v : heap) (m : heap) : ptr :=
  let a := alloc (firstn (length m - length u) m ++ v ++ hs) in
  if negb (N.eqb a null) && match hget m a with None => true | Some _ => false end then a else bump m.
Lemma seen_from_allocator alloc hs u v : allocator (seen_from alloc hs u v).
Proof.
  intros m. unfold seen_from. destruct (N.eqb_spec (alloc (firstn (length m - length u) m ++ v ++ hs)) null);
    cbn [negb andb]; [apply bump_allocator|].
  destruct (hget m _) eqn:E; [apply bump_allocator|]. auto.
Qed.

Lemma sub_none u v a : sub u v -> hget v a = None -> hget u a = None.
Proof. intros S G. destruct (hget u a) eqn:E; [|reflexivity]. apply S in E. congruence. Qed.
Lemma seen_from_here alloc hs u v ev : allocator alloc -> sub u v -> sep (ev ++ v) hs ->
  seen_from alloc hs u v (ev ++ u) = alloc (ev ++ v ++ hs).
Proof.
  intros HA S Sp. unfold seen_from. replace (length (ev ++ u) - length u) with (length ev) by (rewrite app_length; lia).
  rewrite firstn_app, Nat.sub_diag, firstn_O, app_nil_r, firstn_all.
  destruct (HA (ev ++ v ++ hs)) as [Na Fr]. apply N.eqb_neq in Na. rewrite Na. cbn [negb andb].
  rewrite (app_assoc ev v hs) in Fr at 1. apply sep_free in Fr; [|exact Sp]. destruct Fr as [Fr _].
  rewrite (sub_none (sub_event (ev:=ev) S) Fr). reflexivity.
Qed.

Lemma touches_sep hs u v ev : sub u v -> sep v hs -> touches hs u v ev -> sep (ev ++ v) hs.
Proof.
  intros S Sp T a I. rewrite map_app in I. apply in_app_or in I. destruct I as [I|I]; [|now apply Sp].
  destruct (T a I) as [G|[_ G]]; [|exact G]. apply Sp.
  destruct (hget u a) as [n|] eqn:E; [|congruence]. apply S in E.
  destruct (in_dec N.eq_dec a (map fst v)) as [J|J]; [exact J|]. rewrite hget_no_event in E by exact J. discriminate.
Qed.

Lemma part_of {A} alloc hs u v (p : action A) : allocator alloc -> sub u v -> sep v hs ->
  forall ev0 u' x, touches hs u v ev0 -> alone (seen_from alloc hs u v) p (ev0 ++ u) = Ok (u', x) ->
  exists ev, u' = ev ++ u /\ split alloc hs p (ev0 ++ v) = Ok (ev ++ v, x) /\ touches hs u v ev.
Proof.
  intros HA S Sp. induction p as [y| | |a k IH|a n k IH|n k IH|a k IH]; intros ev0 u' x T E; cbn [split alone] in *; try discriminate.
  - injection E as <- <-. exists ev0. auto.
  - destruct (there (ev0 ++ u) a) as [n|] eqn:Th; [|discriminate].
    rewrite (there_some_app hs (there_sub (sub_event (ev:=ev0) S) Th)). cbn in *. now apply IH.
  - destruct (there (ev0 ++ u) a) as [n0|] eqn:Th; [|discriminate].
    rewrite (there_sub (sub_event (ev:=ev0) S) Th). cbn [done_or] in *.
    apply (IH ((a, Some n) :: ev0) u' x); [|exact E]. intros b [<-|I]; [|now apply T].
    unfold there in Th. cbn [fst]. destruct (N.eqb a null); [discriminate|].
    destruct (in_dec N.eq_dec a (map fst ev0)) as [J|J]; [now apply T|]. left. rewrite hget_app_old in Th by exact J. congruence.
  - rewrite seen_from_here in E by eauto using touches_sep. rewrite <- app_assoc.
    apply (IH (alloc (ev0 ++ v ++ hs)) ((alloc (ev0 ++ v ++ hs), Some n) :: ev0) u' x); [|exact E].
    intros b [<-|I]; [|now apply T]. cbn [fst].
    destruct (in_dec N.eq_dec (alloc (ev0 ++ v ++ hs)) (map fst ev0)) as [J|J]; [now apply T|]. right.
    destruct (HA (ev0 ++ v ++ hs)) as [_ Fr]. rewrite hget_app_old in Fr by exact J. now apply sep_free.
  - destruct (there (ev0 ++ u) a) as [n0|] eqn:Th; [|discriminate].
    rewrite (there_sub (sub_event (ev:=ev0) S) Th). cbn [done_or] in *.
    apply (IH ((a, None) :: ev0) u' x); [|exact E]. intros b [<-|I]; [|now apply T].
    unfold there in Th. cbn [fst]. destruct (N.eqb a null); [discriminate|].
    destruct (in_dec N.eq_dec a (map fst ev0)) as [J|J]; [now apply T|]. left. rewrite hget_app_old in Th by exact J. congruence.
Qed.

(** ** Programs that only read *)
Inductive only_looks {A} : action A -> Prop :=
| ol_done x : only_looks (Done x)
| ol_wrong : only_looks Wrong
| ol_spent : only_looks Spent
| ol_look a k : (forall n, only_looks (k n)) -> only_looks (Look a k).

Lemma ol_andthen {A B} (p : action A) (f : A -> action B) :
  only_looks p -> (forall x, only_looks (f x)) -> only_looks (andthen p f).
Proof. intros H F. induction H; cbn [andthen]; try constructor; auto. Qed.

Lemma looks_split {A} alloc hs (p : action A) : only_looks p -> forall v h' x,
  alone alloc p (v ++ hs) = Ok (h', x) -> split alloc hs p v = Ok (v, x).
Proof.
  induction 1 as [y| | |a k _ IH]; intros v h' x E; cbn [alone split] in *; try discriminate.
  - injection E as _ <-. reflexivity.
  - destruct (there (v ++ hs) a); [|discriminate]. cbn in *. eapply IH; eauto.
Qed.

Lemma ol_node_eq : forall fuel a b, only_looks (s_node_eq fuel a b).
Proof.
  induction fuel as [|fuel IH]; intros a b; cbn [s_node_eq]; [constructor|].
  destruct (negb (Bool.eqb (nfin a) (nfin b))); [constructor|]. destruct (negb _); [constructor|].
  induction (nedges a) as [|[c x] es IHes]; [constructor|]. cbv zeta. destruct (N.eqb (transition b c) null); [constructor|].
  constructor. intros n. constructor. intros m. apply ol_andthen; [apply IH|]. intros []; [exact IHes|constructor].
Qed.
Lemma ol_node_hash : forall fuel n, only_looks (s_node_hash fuel n).
Proof.
  induction fuel as [|fuel IH]; intros n; cbn [s_node_hash]; [constructor|].
  apply ol_andthen; [|intros; constructor]. generalize DEADBEEF.
  induction (nedges n) as [|[c x] es IHes]; intros code; [constructor|]. cbv zeta. constructor. intros m.
  apply ol_andthen; [apply IH|]. intros k. apply IHes.
Qed.
Lemma ol_contains d term : only_looks (s_contains d term).
Proof.
  unfold s_contains. apply ol_andthen.
  - generalize 0%N, (d_root d). induction term as [|c term IH]; intros i p; cbn [s_contains_loop]; [constructor|].
    destruct (N.eqb p null); constructor. intros n. destruct (i =? 2147483647)%N; [constructor|apply IH].
  - intros p. destruct (N.eqb p null); constructor. intros n. constructor.
Qed.
Lemma ol_dawg_eq fuel d e : only_looks (s_dawg_eq fuel d e).
Proof.
  unfold s_dawg_eq. destruct (negb _); constructor. intros n. constructor. intros m. apply ol_node_eq.
Qed.
Lemma ol_dawg_hash fuel d : only_looks (s_dawg_hash fuel d).
Proof.
  unfold s_dawg_hash. cbv zeta. constructor. intros n. apply ol_andthen; [apply ol_node_hash|]. intros. constructor.
Qed.
Lemma ol_advance fuel it : only_looks (s_advance fuel it).
Proof.
  unfold s_advance. destruct (it_pending it) as [|p ps] eqn:E; [constructor|]. rewrite <- E. clear E.
  apply ol_andthen; [|intros [[r q] n]; constructor]. generalize (it_pending it). clear p ps it.
  induction fuel as [|fuel IH]; intros [|p ps]; cbn [s_advance_loop]; try constructor. intros n. cbv zeta.
  destruct (nfin n); [constructor|]. destruct (ps ++ _); [constructor|apply IH].
Qed.
Lemma ol_iterate fuel d : only_looks (s_iterate fuel d).
Proof.
  unfold s_iterate. apply ol_andthen; [apply ol_advance|]. generalize (d_size d) as last. generalize fuel at 1 as k.
  induction k as [|k IH]; intros last it; cbn [s_iterate_loop]; [constructor|].
  destruct (N.eqb (it_index it) last); [constructor|]. apply ol_andthen.
  - unfold s_iter_next. apply ol_andthen; [apply ol_advance|]. intros; constructor.
  - intros it'. apply ol_andthen; [apply IH|]. intros; constructor.
Qed.

Lemma ol_pure {A} (r : res A) : only_looks (pure r).
Proof. destruct r; constructor. Qed.
Lemma ol_query_all {R} (rt : result_type R) fuel t term n : only_looks (s_query_all rt fuel t term n).
Proof.
  assert (St : forall q, only_looks (s_advance_step rt (tr_alg t) term n q)).
  { intros q. unfold s_advance_step. destruct (q_edges q) as [|[c p] es].
    - destruct (q_pending q) as [|x rest]; [constructor|]. destruct (i_state x); constructor. intros m. constructor.
    - apply ol_andthen; [apply ol_pure|]. intros x. apply ol_andthen; [apply ol_pure|]. intros cv.
      apply ol_andthen; [apply ol_pure|]. intros [st|]; [|constructor]. cbv zeta. constructor. intros m.
      destruct (nfin m); [|constructor]. destruct (_ <=? n)%N; constructor. }
  assert (Lo : forall k q, only_looks (s_advance_query_loop rt (tr_alg t) term n k q)).
  { induction k as [|k IH]; intros q; cbn [s_advance_query_loop]; [constructor|]. apply ol_andthen; [apply St|].
    intros [[] q']; [constructor|]. destruct (has_work q'); [apply IH|constructor]. }
  assert (Ad : forall q, only_looks (s_advance_query rt (tr_alg t) term n fuel q)).
  { intros q. unfold s_advance_query. destruct (has_work q); [apply Lo|constructor]. }
  unfold s_query_all. apply ol_andthen.
  - unfold s_new_query. cbv zeta. constructor. intros m. destruct (nfin m && _); [constructor|apply Ad].
  - generalize fuel at 1 as k. induction k as [|k IH]; intros q; cbn [s_collect]; [constructor|].
    destruct (query_eq q (end_query rt)); [constructor|]. apply ol_andthen; [apply Ad|]. intros q'.
    apply ol_andthen; [apply IH|]. intros. constructor.
Qed.
Lemma ol_to_protobuf fuel d : only_looks (s_to_protobuf fuel d).
Proof.
  assert (No : forall k p ids finals, only_looks (s_collect_nodes k p ids finals)).
  { induction k as [|k IH]; intros p ids finals; cbn [s_collect_nodes]; [constructor|].
    destruct (set_mem p ids); [constructor|]. constructor. intros n.
    generalize (if nfin n then id_insert p finals else finals). generalize (id_insert p ids).
    induction (nedges n) as [|[c q] es IHes]; intros is fs; [constructor|]. apply ol_andthen; [apply IH|].
    intros [is1 fs1]. apply IHes. }
  assert (Ed : forall k p m, only_looks (s_collect_edges k p m)).
  { induction k as [|k IH]; intros p m; cbn [s_collect_edges]; [constructor|]. constructor. intros n. revert m.
    induction (nedges n) as [|[c q] es IHes]; intros m; [constructor|]. destruct (edges_contains m (p, c)); [apply IHes|].
    apply ol_andthen; [apply IH|]. intros m1. apply IHes. }
  unfold s_to_protobuf. apply ol_andthen; [apply No|]. intros [ids finals]. apply ol_andthen; [apply Ed|]. intros. constructor.
Qed.

(** ** Sizes *)
Fixpoint weight (ts : list str) : nat := match ts with [] => 0 | t :: ts' => S (length t) + weight ts' end.

Lemma height_tsize : forall t, height t <= tsize t.
Proof.
  fix IH 1. intros [f es]. cbn [height tsize]. apply le_n_S.
  induction es as [|[c t] es IHes]; [reflexivity|]. cbn [fold_right snd]. specialize (IH t). lia.
Qed.
Lemma tsize_trie ts : tsize (trie ts) + length ts <= S (weight ts).
Proof.
  unfold trie, trie_from. assert (G : forall t, tsorted t -> tsize (fold_left tadd ts t) + length ts <= tsize t + weight ts).
  { induction ts as [|w ts IH]; intros t S; cbn [fold_left weight length]; [lia|].
    specialize (IH (tadd t w) (tadd_sorted w t S)). pose proof (tsize_tadd w t S). lia. }
  specialize (G leaf tsorted_leaf). rewrite tsize_leaf in G. lia.
Qed.
Lemma weight_app a b : weight (a ++ b) = weight a + weight b.
Proof. induction a as [|x a IH]; cbn [app weight]; [reflexivity|]. rewrite IH. lia. Qed.
Lemma short_weight fuel ts : weight ts <= fuel -> short fuel ts.
Proof.
  induction ts as [|x ts IH]; cbn [weight]; intros H t I; [destruct I|].
  destruct I as [<-|I]; [lia|]. apply IH; [lia|exact I].
Qed.

(** ** How much fuel suffices *)
Lemma clean_up_fuel h b tr n m : unf h (d_root (b_dawg b)) tr -> tsize tr + 2 <= n -> tsize tr + 2 <= m ->
  clean_up n h b = clean_up m h b.
Proof.
  intros U Ln Lm. destruct (all_nodes_all h (b_dawg b) tr U) as (nodes & E & _).
  unfold clean_up. destruct (b_work b); [|reflexivity]. now rewrite !E.
Qed.
Lemma destroy_dawg_fuel h d tr n m : unf h (d_root d) tr -> tsize tr + 2 <= n -> tsize tr + 2 <= m ->
  destroy_dawg n h d = destroy_dawg m h d.
Proof.
  intros U Ln Lm. destruct (all_nodes_all h d tr U) as (nodes & E & _). unfold destroy_dawg. now rewrite !E.
Qed.
Lemma destroy_fuel B h0 h b w frs t0 tr n m : b_work b = Some w -> inv B h0 h (d_root (b_dawg b)) w frs t0 ->
  unf h (d_root (b_dawg b)) tr -> tsize tr + 2 <= n -> tsize tr + 2 <= m -> destroy n h b = destroy m h b.
Proof.
  intros Hw I U Ln Lm. unfold destroy. rewrite (clean_up_fuel U Ln Lm).
  destruct (clean_up_ok B h0 h b w frs t0 Hw I) as (en & h1 & E1 & R1 & R2).
  rewrite (@clean_up_fuel h b tr m (Nat.max m en) U) by lia. rewrite E1 by lia. cbn [rbind b_dawg].
  apply destroy_dawg_fuel with (tr := tr); auto.
  eapply unf_frame with (P := reach h (d_root (b_dawg b))); eauto using reach_closed, reach_refl. intros. apply R1; auto.
Qed.

(** The part of the tree that is linked while building. *)
Lemma growing_tree B h0 h b t w frs t0 : binv B h0 h b t w frs t0 ->
  exists tr, unf h (d_root (b_dawg b)) tr /\ tsize tr <= tsize t.
Proof.
  intros [Hw I Ht Hh Hp Hn]. destruct (w_unchecked w) as [|x un] eqn:Eu.
  - pose proof (iv_frames _ _ _ _ _ _ _ I) as F. rewrite Eu in F. inversion F; subst.
    pose proof (iv_top _ _ _ _ _ _ _ I) as U. rewrite Eu in U. cbn in *. eauto.
  - pose proof (iv_frames _ _ _ _ _ _ _ I) as F. rewrite Eu in F.
    destruct (frames_bottom _ _ _ _ t0 F ltac:(discriminate)) as (n & es & c & sub0 & rest & G & U & Gc & Fi & La).
    destruct (iv_edges _ _ _ _ _ _ _ I _ (or_introl eq_refl)) as (n' & G' & S & _).
    rewrite G in G'. injection G' as <-. exists (T (nfin n) es). split.
    + eapply unf_intro; eauto; [eapply hget_null_top; eauto; left; auto|]. repeat split; auto.
    + rewrite <- Ht, Fi, tsize_set_new by exact Gc. lia.
Qed.
