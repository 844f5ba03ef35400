(** * ReadCostProofs: the nodes looked at by contains and by iterators. *)
From Coq Require Import Sorting.Sorted Sorting.Permutation.
From Verif Require Import Base Spec ModelTransducer ModelDawg ModelReadCost SpecDawg TreeProofs HeapProofs IterProofs BoundProofs IterHoldProofs.
Local Open Scope nat_scope.

(** ** contains *)

(** The proper prefixes of [w] that lead from the root of [t] to a node. *)
Fixpoint path (t : tree) (w : str) : list str :=
  match w with
  | [] => []
  | c :: w' => [] :: match edge_get (tedges t) c with Some t' => map (cons c) (path t' w') | None => [] end
  end.

Lemma path_in : forall w t v, In v (path t w) <-> tin (full t) v = true /\ exists c u, w = v ++ c :: u.
Proof.
  induction w as [|c w IH]; intros [f es] v; cbn [path tedges].
  - split; [intros []|]. intros (_ & c & u & E). destruct v; discriminate.
  - destruct v as [|c' v].
    + split; [|left; reflexivity]. intros _. split; [reflexivity|]. exists c, w. reflexivity.
    + cbn [full tin tedges In]. change (map (fun e => (fst e, full (snd e))) es) with (fulls es). rewrite fulls_get. split.
      * intros [X|I]; [discriminate|]. destruct (edge_get es c) as [t|] eqn:G; [|destruct I]. apply in_map_iff in I.
        destruct I as (v' & E & I). injection E as <- <-. rewrite G. apply IH in I. destruct I as (T & c1 & u & ->).
        split; [exact T|]. exists c1, u. reflexivity.
      * intros (T & c1 & u & E). cbn [app] in E. injection E as <- E. right. destruct (edge_get es c) as [t|]; [|discriminate].
        apply in_map. apply IH. eauto.
Qed.

Lemma path_nodup : forall w t, NoDup (path t w).
Proof.
  induction w as [|c w IH]; intros t; cbn [path]; [constructor|]. constructor.
  - destruct (edge_get (tedges t) c); [|intros []]. intros I. apply in_map_iff in I. destruct I as (? & X & _). discriminate.
  - destruct (edge_get (tedges t) c); [|constructor]. apply FinFun.Injective_map_NoDup; [|apply IH]. intros a b E. now injection E.
Qed.

Lemma path_length : forall w t, length (path t w) <= length w.
Proof.
  induction w as [|c w IH]; intros t; cbn [path length]; [lia|]. destruct (edge_get (tedges t) c); cbn [length]; [|lia].
  rewrite map_length. specialize (IH t0). lia.
Qed.

Lemma c_contains_loop_ok : forall w h p t i s, unf h p t -> (i + N.of_nat (length w) <= 2147483647)%N ->
  exists q, contains_loop h p i w = Ok q /\ c_contains_loop h p i s w = Ok (q, map (app s) (path t w)).
Proof.
  induction w as [|c w IH]; intros h p t i s U B; cbn [contains_loop c_contains_loop path].
  - exists p. auto.
  - destruct (unf_read _ _ _ U) as (n & R & G & Sn & Un & Fn).
    pose proof (unf_inv _ _ _ U) as (_ & NN & _). apply N.eqb_neq in NN. rewrite NN, R. cbn [rbind].
    cbn [length] in B. replace (i =? 2147483647)%N with false by (symmetry; apply N.eqb_neq; lia).
    unfold transition. pose proof (unfs_get _ _ _ c Un) as X.
    destruct (edge_get (nedges n) c) as [q|].
    + destruct X as (t' & Gt & U'). rewrite Gt. destruct (IH h q t' (i + 1)%N (s ++ [c]) U' ltac:(lia)) as (q' & E1 & E2).
      exists q'. split; [exact E1|]. rewrite E2. cbn [rbind map]. rewrite app_nil_r, map_map. do 3 f_equal.
      apply map_ext. intros v. now rewrite <- app_assoc.
    + rewrite X. exists null. destruct w; cbn; rewrite app_nil_r; auto.
Qed.

Lemma c_contains_ok : forall h d t w, unf h (d_root d) t -> (N.of_nat (length w) <= 2147483647)%N ->
  contains h d w = Ok (tin t w) /\ c_contains h d w = Ok (tin t w, path t w).
Proof.
  intros h d t w U B. pose proof (contains_ok h d t w U B) as C. split; [exact C|]. unfold contains, c_contains in *.
  destruct (c_contains_loop_ok w h _ t 0%N [] U) as (q & E1 & E2); [lia|]. rewrite E1 in C. rewrite E2. cbn [rbind] in *.
  rewrite (map_ext (app []) (fun v => v)), map_id by reflexivity.
  destruct (N.eqb q null); [congruence|]. destruct (read h q); cbn [rbind] in *; try discriminate. congruence.
Qed.

(** ** Iterators *)
Lemma c_loop_erase : forall fuel h ps,
  advance_loop fuel h ps = do (rest, p, n, taken) <- c_advance_loop fuel h ps; Ok (rest, p, n).
Proof.
  induction fuel as [|fuel IH]; intros h ps; [reflexivity|]. cbn [advance_loop c_advance_loop]. destruct ps as [|p ps]; [reflexivity|].
  destruct (read h (prefix_node p)) as [n| |]; cbn [rbind]; try reflexivity.
  destruct (nfin n); [reflexivity|]. destruct (ps ++ _) as [|r rest] eqn:E; [reflexivity|]. rewrite IH.
  destruct (c_advance_loop fuel h (r :: rest)) as [[[[? ?] ?] ?]| |]; reflexivity.
Qed.

Lemma c_advance_erase fuel h it : advance fuel h it = do (it', taken) <- c_advance fuel h it; Ok it'.
Proof.
  unfold advance, c_advance. destruct (it_pending it); [reflexivity|]. rewrite c_loop_erase.
  destruct (c_advance_loop fuel h (p :: l)) as [[[[? ?] ?] ?]| |]; reflexivity.
Qed.

Lemma c_loop_ok : forall fuel h ps q, Forall2 (represents_item h) ps q -> ps <> [] -> qsize q < fuel ->
  exists rest p n q' P s, c_advance_loop fuel h ps = Ok (rest, p, n, P ++ [s]) /\ Forall2 (represents_item h) rest q' /\
    qsize q' < qsize q /\ pops q (P ++ [s]) q' /\
    ((nfin n = true /\ prefix_str p = s /\ enum q = s :: enum q') \/ (nfin n = false /\ q' = [] /\ enum q = [])).
Proof.
  induction fuel as [|fuel IH]; intros h ps q F NE L; [lia|].
  destruct F as [|p [s [f es]] ps q [Ps Up] F]; [congruence|]. cbn in Ps, Up.
  destruct (unf_read _ _ _ Up) as (n & R & G & Sn & Un & Fn). cbn in Un, Fn.
  cbn [c_advance_loop]. rewrite R. cbn [rbind].
  set (rest := ps ++ map (fun e => ChildPrefix (snd e) p (fst e)) (nedges n)).
  assert (F' : Forall2 (represents_item h) rest (q ++ children s es)).
  { apply Forall2_app; auto. subst s. clear - Un. unfold children. induction Un; cbn; constructor; auto.
    split; auto. }
  pose proof (qsize_step s f es q) as Q. rewrite enum_cons. rewrite Fn in *.
  destruct (nfin n) eqn:En.
  - exists rest, p, n, (q ++ children s es), [], s. rewrite Ps. split; [auto|]. split; [auto|]. split; [lia|].
    split; [repeat constructor|]. left. auto.
  - destruct rest as [|r rest'] eqn:Er.
    + assert (E0 : q ++ children s es = []) by (inversion F'; reflexivity). exists [], p, n, [], [], s. rewrite Ps. split; [auto|]. split; [constructor|].
      split; [change (qsize []) with 0; lia|]. split; [cbn; constructor; rewrite E0; constructor|]. right. rewrite E0. auto.
    + destruct (IH h (r :: rest') (q ++ children s es) F') as (rest2 & p2 & n2 & q2 & P2 & s2 & E2 & F2 & L2 & Po & D2);
        [discriminate | lia |].
      exists rest2, p2, n2, q2, (s :: P2), s2. rewrite E2. cbn [rbind app]. rewrite Ps. split; [auto|]. split; [auto|].
      split; [lia|]. split; [constructor; exact Po|]. auto.
Qed.

(** An iterator over the tree [t] that shows the [k]-th word has taken [P]. *)
Definition stage (h : heap) (t : tree) (k : nat) (it : iter) (P : list str) : Prop :=
  exists q, Forall2 (represents_item h) (it_pending it) q /\ qsize q <= tsize t /\ enum q = skipn (S k) (words t) /\
    pops [([], t)] P q /\
    match nth_error (words t) k with
    | Some s => it_value it = s /\ exists P', P = P' ++ [s]
    | None => q = []
    end.

Lemma stage_advance h t fuel : tsize t < fuel -> forall k it q P0,
  Forall2 (represents_item h) (it_pending it) q -> qsize q <= tsize t -> enum q = skipn k (words t) -> pops [([], t)] P0 q ->
  exists it' P, c_advance fuel h it = Ok (it', P) /\ it_index it' = it_index it /\ stage h t k it' (P0 ++ P).
Proof.
  intros Hf k it q P0 F L Eq Po. unfold c_advance, stage.
  rewrite nth_error_skipn, <- Eq.
  assert (Tl : skipn (S k) (words t) = tl (enum q)).
  { rewrite Eq. clear. revert k. induction (words t) as [|x l IH]; intros [|k]; auto. cbn [skipn] in *. apply IH. }
  destruct (it_pending it) as [|p ps] eqn:Ep.
  - inversion F; subst. exists it, []. split; [reflexivity|]. split; [reflexivity|]. exists []. rewrite Ep, app_nil_r. split; [constructor|].
    split; [cbn; lia|]. rewrite Tl, enum_nil. cbn. auto.
  - destruct (c_loop_ok fuel h (p :: ps) q F) as (rest & p2 & n & q' & P & s & E & F' & L' & Po' & D); [discriminate|lia|].
    rewrite E. cbn [rbind]. eexists _, _. split; [reflexivity|]. split; [reflexivity|]. exists q'. cbn [it_pending it_value].
    split; [exact F'|]. split; [lia|]. rewrite Tl.
    split; [|split; [exact (pops_app Po Po')|]]; destruct D as [(En & Es & Ee)|(En & -> & Ee)]; rewrite Ee; cbn [tl hd_error].
    + reflexivity.
    + apply enum_nil.
    + rewrite En. split; [exact Es|]. exists (P0 ++ P). now rewrite app_assoc.
    + reflexivity.
Qed.

Lemma stage_increments h t fuel : tsize t < fuel -> forall k j it P0, stage h t j it P0 ->
  exists it' P, c_increments k fuel h it = Ok (it', P) /\ stage h t (j + k) it' (P0 ++ P).
Proof.
  intros Hf. induction k as [|k IH]; intros j it P0 St; cbn [c_increments].
  - exists it, []. rewrite Nat.add_0_r, app_nil_r. auto.
  - destruct St as (q & F & L & Eq & Po & _).
    destruct (stage_advance h t fuel Hf (S j) it q P0 F L Eq Po) as (it1 & P1 & E1 & _ & St1). rewrite E1. cbn [rbind].
    destruct (IH (S j) (Iter (it_pending it1) (it_value it1) (wadd (it_index it1) 1)) (P0 ++ P1)) as (it2 & P2 & E2 & St2).
    { exact St1. }
    exists it2, (P1 ++ P2). rewrite E2. cbn [rbind]. split; [reflexivity|]. rewrite Nat.add_succ_r, app_assoc. exact St2.
Qed.

Lemma c_iterator_ok h d t fuel k : unf h (d_root d) t -> tsize t < fuel ->
  exists it P, c_iterator k fuel h d = Ok (it, P) /\ stage h t k it P.
Proof.
  intros U Hf. unfold c_iterator.
  destruct (stage_advance h t fuel Hf 0 (Iter [RootPrefix (d_root d)] [] 0%N) [([], t)] []) as (it & P & E & _ & St).
  - cbn. constructor; [|constructor]. split; auto.
  - unfold qsize. cbn. lia.
  - reflexivity.
  - constructor.
  - rewrite E. cbn [rbind]. destruct (stage_increments h t fuel Hf k 0 it P St) as (it2 & P2 & E2 & St2). rewrite E2. cbn [rbind].
    eexists _, _. split; [reflexivity|exact St2].
Qed.

Lemma c_loop_mono : forall fuel fuel' h ps r, fuel <= fuel' -> c_advance_loop fuel h ps = Ok r -> c_advance_loop fuel' h ps = Ok r.
Proof.
  induction fuel as [|fuel IH]; intros fuel' h ps r L E; [discriminate|]. destruct fuel' as [|fuel']; [lia|].
  cbn [c_advance_loop] in *. destruct ps as [|p ps]; [discriminate|].
  destruct (read h (prefix_node p)) as [n| |]; cbn [rbind] in *; try discriminate.
  destruct (nfin n); [exact E|]. destruct (ps ++ _) as [|x rest]; [exact E|].
  destruct (c_advance_loop fuel h (x :: rest)) as [r1| |] eqn:E1; try discriminate.
  rewrite (IH fuel' h _ r1 ltac:(lia) E1). exact E.
Qed.

Lemma c_advance_mono fuel fuel' h it r : fuel <= fuel' -> c_advance fuel h it = Ok r -> c_advance fuel' h it = Ok r.
Proof.
  intros L E. unfold c_advance in *. destruct (it_pending it) as [|p ps]; [exact E|].
  destruct (c_advance_loop fuel h (p :: ps)) as [r1| |] eqn:E1; try discriminate. now rewrite (c_loop_mono _ _ _ _ _ L E1).
Qed.

Lemma c_increments_mono fuel fuel' h : fuel <= fuel' -> forall k it r, c_increments k fuel h it = Ok r -> c_increments k fuel' h it = Ok r.
Proof.
  intros L. induction k as [|k IH]; intros it r E; cbn [c_increments] in *; [exact E|].
  destruct (c_advance fuel h it) as [[it1 P1]| |] eqn:E1; try discriminate. rewrite (c_advance_mono _ _ _ _ _ L E1). cbn [rbind] in *.
  destruct (c_increments k fuel h _) as [[it2 P2]| |] eqn:E2; try discriminate. now rewrite (IH _ _ E2).
Qed.

Lemma c_iterator_mono k fuel fuel' h d r : fuel <= fuel' -> c_iterator k fuel h d = Ok r -> c_iterator k fuel' h d = Ok r.
Proof.
  intros L E. unfold c_iterator in *.
  destruct (c_advance fuel h _) as [[it1 P1]| |] eqn:E1; try discriminate. rewrite (c_advance_mono _ _ _ _ _ L E1). cbn [rbind] in *.
  destruct (c_increments k fuel h it1) as [[it2 P2]| |] eqn:E2; try discriminate. now rewrite (c_increments_mono _ _ _ L _ _ _ E2).
Qed.
