(** * StoryProofs: telling how nodes that exist could have been made by hand. *)
From Coq Require Import Sorting.Sorted.
From Verif Require Import Base Spec ModelDawg ModelSerial ModelHand ModelHandMap SpecDawg SpecHand SpecHandMap TreeProofs HeapProofs SerialProofs RoundProofs HandProofs HandMapProofs HandDawgProofs.
From Verif Require SaveRoundProofs.
Local Open Scope nat_scope.

(** The position of a node. *)
Fixpoint position (ps : list ptr) (q : ptr) : nat :=
  match ps with
  | [] => 0
  | p :: ps' => if (p =? q)%N then 0 else S (position ps' q)
  end.

Lemma position_at : forall ps q, In q ps -> nth_error ps (position ps q) = Some q.
Proof. induction ps as [|p ps IH]; intros q I; [destruct I|]. cbn [position]. destruct (N.eqb_spec p q) as [->|N]; [reflexivity|]. destruct I as [->|I]; [contradiction|]. cbn [nth_error]. auto. Qed.

Lemma nth_NoDup : forall (ps : list ptr) x y p, NoDup ps -> nth_error ps x = Some p -> nth_error ps y = Some p -> x = y.
Proof. intros ps x y p ND E1 E2. apply (proj1 (NoDup_nth_error ps) ND); [|congruence]. apply nth_error_Some. congruence. Qed.

Definition node_of (h : heap) (p : ptr) : node := match hget h p with Some n => n | None => Node false [] end.

Definition links (h : heap) (ps : list ptr) (k : nat) (p : ptr) : list node_call := map (fun e => Link k (fst e) (position ps (snd e))) (nedges (node_of h p)).

Fixpoint all_links (h : heap) (ps : list ptr) (k : nat) (rest : list ptr) : list node_call :=
  match rest with
  | [] => []
  | p :: rest' => links h ps k p ++ all_links h ps (S k) rest'
  end.

Definition story (h : heap) (ps : list ptr) : list node_call := map (fun p => Make (nfin (node_of h p))) ps ++ all_links h ps 0 ps.

Definition keys (hist : list node_call) : list (nat * char) := flat_map (fun o => match o with Link x c _ => [(x, c)] | _ => [] end) hist.

Lemma keys_app : forall a b, keys (a ++ b) = keys a ++ keys b.
Proof. intros a b. apply flat_map_app. Qed.

Lemma keys_links : forall h ps k p, keys (links h ps k p) = map (fun e => (k, fst e)) (nedges (node_of h p)).
Proof. intros h ps k p. unfold links. induction (nedges (node_of h p)) as [|e es IH]; [reflexivity|]. cbn [map keys flat_map app] in *. f_equal. exact IH. Qed.

Lemma keys_all : forall h ps rest k x c, In (x, c) (keys (all_links h ps k rest)) -> k <= x.
Proof.
  intros h ps. induction rest as [|p rest IH]; intros k x c I; [destruct I|]. cbn [all_links] in I. rewrite keys_app, keys_links in I. apply in_app_or in I. destruct I as [I|I].
  - apply in_map_iff in I. destruct I as (e & E & _). injection E as <- _. lia.
  - specialize (IH _ _ _ I). lia.
Qed.

Lemma sorted_NoDup : forall A (es : list (char * A)), esorted es -> NoDup (map fst es).
Proof.
  intros A es S. unfold esorted in S. induction es as [|[c a] es IH]; [constructor|]. cbn [map] in *. inversion S as [|? ? S' F]; subst. constructor; [|auto].
  intros I. rewrite Forall_forall in F. apply in_map_iff in I. destruct I as (e & E & I). specialize (F _ I). unfold elt in F. cbn [fst] in *. rewrite E in F. lia.
Qed.

Lemma NoDup_app_intro : forall A (a b : list A), NoDup a -> NoDup b -> (forall x, In x a -> ~ In x b) -> NoDup (a ++ b).
Proof.
  intros A. induction a as [|x a IH]; intros b Na Nb D; [exact Nb|]. inversion Na; subst. cbn [app]. constructor.
  - intros I. apply in_app_or in I. destruct I as [I|I]; [contradiction|]. exact (D x (or_introl eq_refl) I).
  - apply IH; auto. intros y I. apply D. now right.
Qed.

Lemma keys_NoDup : forall h ps rest k, (forall p, In p rest -> esorted (nedges (node_of h p))) -> NoDup (keys (all_links h ps k rest)).
Proof.
  intros h ps. induction rest as [|p rest IH]; intros k S; [constructor|]. cbn [all_links]. rewrite keys_app, keys_links. apply NoDup_app_intro.
  - pose proof (sorted_NoDup _ _ (S p (or_introl eq_refl))) as ND. replace (map (fun e => (k, fst e)) (nedges (node_of h p))) with (map (pair k) (map fst (nedges (node_of h p)))) by apply map_map.
    apply FinFun.Injective_map_NoDup; [|exact ND]. intros a b E. congruence.
  - apply IH. intros q I. apply S. now right.
  - intros (x & c) I1 I2. apply in_map_iff in I1. destruct I1 as (e & E & _). injection E as <- _. apply keys_all in I2. lia.
Qed.

Lemma keys_makes : forall h ps, keys (map (fun p => Make (nfin (node_of h p))) ps) = [].
Proof. intros h. induction ps as [|p ps IH]; [reflexivity|exact IH]. Qed.

Lemma all_links_In : forall h ps rest k o, In o (all_links h ps k rest) -> exists i p c q, nth_error rest i = Some p /\ In (c, q) (nedges (node_of h p)) /\ o = Link (k + i) c (position ps q).
Proof.
  intros h ps. induction rest as [|p rest IH]; intros k o I; [destruct I|]. cbn [all_links] in I. apply in_app_or in I. destruct I as [I|I].
  - apply in_map_iff in I. destruct I as ((c & q) & E & I). exists 0, p, c, q. rewrite Nat.add_0_r. auto.
  - destruct (IH _ _ I) as (i & p' & c & q & E1 & E2 & ->). exists (S i), p', c, q. split; [exact E1|]. split; [exact E2|]. f_equal. lia.
Qed.

Lemma made_story : forall h ps, made (story h ps) = map (fun p => nfin (node_of h p)) ps.
Proof.
  intros h ps. unfold story. rewrite made_app. replace (made (all_links h ps 0 ps)) with (@nil bool); [rewrite app_nil_r; induction ps as [|p l IH]; [reflexivity|cbn [map made flat_map app] in *; f_equal; exact IH]|].
  assert (X : forall o, In o (all_links h ps 0 ps) -> exists x c y, o = Link x c y) by (intros o I; apply all_links_In in I; destruct I as (i & p & c & q & _ & _ & ->); eauto).
  revert X. induction (all_links h ps 0 ps) as [|o l IH]; intros X; [reflexivity|]. destruct (X o (or_introl eq_refl)) as (x & c & y & ->). cbn [made flat_map app]. apply IH. intros o I. apply X. now right.
Qed.

Lemma marked_none : forall hist x, (forall y b, ~ In (Mark y b) hist) -> marked hist x = None.
Proof.
  intros hist x. induction hist as [|o hist IH] using rev_ind; intros N; [reflexivity|]. rewrite marked_snoc. assert (marked hist x = None) as ->; [apply IH; intros y b I; apply (N y b), in_or_app; now left|].
  destruct o; auto. destruct (N x0 final). apply in_or_app. right. now left.
Qed.

Lemma story_In : forall h ps o, In o (story h ps) -> (exists b, o = Make b) \/ exists x p c q, nth_error ps x = Some p /\ In (c, q) (nedges (node_of h p)) /\ o = Link x c (position ps q).
Proof.
  intros h ps o I. unfold story in I. apply in_app_or in I. destruct I as [I|I]; [left; apply in_map_iff in I; destruct I as (p & <- & _); eauto|right].
  apply all_links_In in I. exact I.
Qed.

Lemma story_finality : forall h ps x p, nth_error ps x = Some p -> finality (story h ps) x = Some (nfin (node_of h p)).
Proof.
  intros h ps x p E. unfold finality. rewrite marked_none; [rewrite made_story; exact (map_nth_error (fun p => nfin (node_of h p)) x ps E)|].
  intros y b I. apply story_In in I. destruct I as [(b' & X)|(? & ? & ? & ? & _ & _ & X)]; discriminate X.
Qed.

Section Story.
  Variables (h : heap) (ps : list ptr).
  Hypothesis Sorted : forall p, In p ps -> esorted (nedges (node_of h p)).

  Lemma story_keys : NoDup (keys (story h ps)).
  Proof. unfold story. rewrite keys_app, keys_makes. cbn [app]. now apply keys_NoDup. Qed.

  Lemma key_In : forall hist x c y, In (Link x c y) hist -> In (x, c) (keys hist).
  Proof. intros hist x c y I. apply in_flat_map. exists (Link x c y). split; [exact I|now left]. Qed.

  Lemma keys_one : forall h1 x c y h2, NoDup (keys (h1 ++ Link x c y :: h2)) -> target h1 x c = None.
  Proof.
    intros h1 x c y h2 ND. destruct (target h1 x c) as [z|] eqn:T; [|reflexivity]. exfalso. apply target_In, key_In in T. rewrite keys_app in ND. cbn [keys flat_map app] in ND.
    fold (keys h2) in ND. apply NoDup_remove_2 in ND. apply ND, in_or_app. now left.
  Qed.

  Lemma never_replaced : forall hist z, NoDup (keys hist) -> ~ replaced hist z.
  Proof. intros hist z ND (h1 & x & c & y2 & h2 & -> & T). rewrite (keys_one _ _ _ _ _ ND) in T. discriminate. Qed.

  Lemma after_makes : forall (bs : list bool) ls h1 x c y h2, map Make bs ++ ls = h1 ++ Link x c y :: h2 -> length bs <= length (made h1).
  Proof.
    induction bs as [|b bs IH]; intros ls h1 x c y h2 E; cbn [length]; [lia|]. destruct h1 as [|o h1]; cbn [map app] in E; [discriminate E|]. injection E as <- E. apply IH in E. cbn [made flat_map app length]. fold (made h1). lia.
  Qed.

  Lemma story_still : forall x, exists_still (story h ps) x <-> x < length ps.
  Proof. intros x. unfold exists_still. rewrite made_story, map_length. split; [tauto|]. intros L. split; [exact L|]. apply never_replaced, story_keys. Qed.

  Hypothesis Closed : forall p c q, In p ps -> In (c, q) (nedges (node_of h p)) -> In q ps.

  Lemma position_lt : forall q, In q ps -> position ps q < length ps.
  Proof. intros q I. apply nth_error_Some. rewrite position_at by exact I. discriminate. Qed.

  Lemma story_orderly : orderly (story h ps).
  Proof.
    intros h1 o h2 E. pose proof (story_keys) as ND. rewrite E in ND. destruct o as [b|x b|x c y]; [exact Logic.I| |].
    - exfalso. assert (I : In (Mark x b) (story h ps)) by (rewrite E; apply in_or_app; right; now left). apply story_In in I. destruct I as [(b' & X)|(? & ? & ? & ? & _ & _ & X)]; discriminate X.
    - assert (N1 : NoDup (keys h1)). { rewrite keys_app in ND. clear -ND. induction (keys h1) as [|k l IH]; [constructor|]. cbn [app] in ND. inversion ND; subst. constructor; [|auto]. intros I. apply H1, in_or_app. now left. }
      assert (I : In (Link x c y) (story h ps)) by (rewrite E; apply in_or_app; right; now left). apply story_In in I. destruct I as [(b' & X)|(x' & p & c' & q & E1 & I & X)]; [discriminate X|]. injection X as <- <- ->.
      assert (Le : length ps <= length (made h1)).
      { unfold story in E. replace (map (fun p => Make (nfin (node_of h p))) ps) with (map Make (map (fun p => nfin (node_of h p)) ps)) in E by apply map_map. apply after_makes in E. now rewrite map_length in E. }
      assert (Ip : In p ps) by (eapply nth_error_In; eauto). pose proof (position_lt q (Closed p c q Ip I)) as L2.
      assert (L1 : x < length ps) by (apply nth_error_Some; congruence).
      split; [split; [lia|now apply never_replaced]|]. split; [split; [lia|now apply never_replaced]|]. intros old T. rewrite (keys_one _ _ _ _ _ ND) in T. discriminate.
  Qed.

  Lemma target_found : forall hist x c y, NoDup (keys hist) -> In (Link x c y) hist -> target hist x c = Some y.
  Proof.
    intros hist x c y. induction hist as [|o hist IH] using rev_ind; intros ND I; [destruct I|]. rewrite target_snoc. apply in_app_or in I. destruct I as [I|[->|[]]].
    - assert (N1 : NoDup (keys hist)). { rewrite keys_app in ND. clear -ND. induction (keys hist) as [|k l IH]; [constructor|]. cbn [app] in ND. inversion ND; subst. constructor; [|auto]. intros I. apply H1, in_or_app. now left. }
      rewrite (IH N1 I). destruct o as [b|z b|z d w]; auto. destruct ((z =? x) && ceqb d c) eqn:E; [|reflexivity]. apply andb_prop in E. destruct E as (E1 & E2). apply Nat.eqb_eq in E1. apply ceqb_true in E2. subst z d.
      pose proof (keys_one _ _ _ _ _ ND) as X. rewrite (IH N1 I) in X. discriminate.
    - now rewrite Nat.eqb_refl, ceqb_refl.
  Qed.

  Lemma links_In : forall rest k i p c q, nth_error rest i = Some p -> In (c, q) (nedges (node_of h p)) -> In (Link (k + i) c (position ps q)) (all_links h ps k rest).
  Proof.
    induction rest as [|r rest IH]; intros k i p c q E I; [destruct i; discriminate E|]. cbn [all_links]. apply in_or_app. destruct i as [|i].
    - injection E as ->. left. rewrite Nat.add_0_r. apply in_map_iff. exists (c, q). auto.
    - right. replace (k + S i) with (S k + i) by lia. eapply IH; eauto.
  Qed.

  Lemma story_target : forall x p c, nth_error ps x = Some p ->
    match target (story h ps) x c with
    | None => edge_get (nedges (node_of h p)) c = None
    | Some y => exists q, nth_error ps y = Some q /\ edge_get (nedges (node_of h p)) c = Some q
    end.
  Proof.
    intros x p c E. assert (Ip : In p ps) by (eapply nth_error_In; eauto). destruct (target (story h ps) x c) as [y|] eqn:T.
    - apply target_In, story_In in T. destruct T as [(b & X)|(x' & p' & c' & q & E1 & I & X)]; [discriminate X|]. injection X as <- <- ->. assert (p' = p) by congruence. subst p'.
      exists q. split; [apply position_at, (Closed p c q Ip I)|]. exact (edge_In_get _ _ _ _ (Sorted p Ip) I).
    - destruct (edge_get (nedges (node_of h p)) c) as [q|] eqn:G; [|reflexivity]. exfalso. apply edge_get_In in G.
      assert (I : In (Link x c (position ps q)) (story h ps)) by (unfold story; apply in_or_app; right; exact (links_In ps 0 x p c q E G)). rewrite (target_found _ _ _ _ story_keys I) in T. discriminate.
  Qed.

  (** The memory before these nodes were made. *)
  Definition before : heap := map (fun p => (p, None)) ps ++ h.

  Lemma before_at : forall p, hget before p = if existsb (N.eqb p) ps then None else hget h p.
  Proof.
    intros p. unfold before. clear. induction ps as [|q l IH]; [reflexivity|]. cbn [map app existsb]. change ((if N.eqb p q then None else hget (map (fun p => (p, None)) l ++ h) p) = if ((p =? q)%N || existsb (N.eqb p) l)%bool then None else hget h p).
    destruct (N.eqb p q); [reflexivity|exact IH].
  Qed.

  Hypothesis ND : NoDup ps.
  Hypothesis There : forall p, In p ps -> p <> null /\ hget h p = Some (node_of h p).

  Lemma story_stands : stands before (story h ps) h ps.
  Proof.
    constructor.
    - now rewrite made_story, map_length.
    - intros x Ex. apply story_still in Ex. destruct (nth_error ps x) as [p|] eqn:E; [|apply nth_error_None in E; lia]. assert (Ip : In p ps) by (eapply nth_error_In; eauto). destruct (There p Ip) as (Np & G).
      exists p, (node_of h p). split; [reflexivity|]. split; [exact Np|]. split.
      { rewrite before_at. replace (existsb (N.eqb p) ps) with true; [reflexivity|]. symmetry. apply existsb_exists. exists p. split; [exact Ip|apply N.eqb_refl]. }
      split; [exact G|]. split; [now apply story_finality|]. split; [now apply Sorted|]. intros c. now apply story_target.
    - intros x y p _ _ E1 E2. eapply nth_NoDup; eauto.
    - intros p N. rewrite before_at. destruct (existsb (N.eqb p) ps) eqn:X; [|reflexivity]. exfalso. apply existsb_exists in X. destruct X as (p' & I & E). apply N.eqb_eq in E. subst p'.
      apply (N (position ps p)); [apply story_still, position_lt, I|apply position_at, I].
  Qed.
End Story.

Lemma perform_any_grows : forall alloc os h ps h' ps', perform_any_all alloc h ps os = Ok (h', ps') -> exists l, ps' = ps ++ l.
Proof.
  intros alloc. induction os as [|o os IH]; intros h ps h' ps' E; cbn [perform_any_all] in E; [injection E as _ <-; exists []; now rewrite app_nil_r|].
  destruct (perform_any alloc h ps o) as [[h1 ps1]| |] eqn:E1; cbn [rbind] in E; try discriminate. destruct (IH _ _ _ _ E) as (l & ->).
  assert (X : exists l1, ps1 = ps ++ l1); [|destruct X as (l1 & ->); exists (l1 ++ l); now rewrite app_assoc].
  destruct o as [[b|x b|x c y]|es b]; cbn [perform_any perform] in E1.
  - injection E1 as _ <-. eauto.
  - destruct (deref (nth_error ps x)) as [p| |]; cbn [rbind] in E1; try discriminate. destruct (set_final h p b); cbn [rbind] in E1; try discriminate. injection E1 as _ <-. exists []. now rewrite app_nil_r.
  - destruct (deref (nth_error ps x)) as [p| |]; cbn [rbind] in E1; try discriminate. destruct (deref (nth_error ps y)) as [q| |]; cbn [rbind] in E1; try discriminate. destruct (add_edge h p c q); cbn [rbind] in E1; try discriminate. injection E1 as _ <-. exists []. now rewrite app_nil_r.
  - destruct (addresses ps es); cbn [rbind] in E1; try discriminate. injection E1 as _ <-. eauto.
Qed.

(** ** The nodes of a dictionary, the root first *)
Lemma retold : forall h root, solid h root -> exists st nodes h0, orderly st /\ nth_error nodes 0 = Some root /\ exists_still st 0 /\ stands h0 st h nodes /\ (forall x, x < length nodes -> exists_still st x) /\ (forall q, In q nodes <-> reach h root q) /\ NoDup nodes.
Proof.
  intros h root S. destruct (SaveRoundProofs.saved h (Dawg root 0) S) as (m & _ & D). destruct D as [Dn _ _ _ _ N1 _ _]. cbn [d_root] in *.
  set (nodes := root :: filter (fun p => negb (p =? root)%N) (m_nodes m)).
  assert (In' : forall q, In q nodes <-> reach h root q).
  { intros q. unfold nodes. cbn [In]. rewrite filter_In, Dn. split; [intros [<-|(R & _)]; [apply reach_refl|exact R]|]. intros R. destruct (N.eqb_spec q root) as [->|N]; [now left|right; auto]. }
  assert (ND : NoDup nodes).
  { constructor; [|now apply NoDup_filter]. intros I. apply filter_In in I. destruct I as (_ & X). rewrite N.eqb_refl in X. discriminate. }
  assert (At : forall p, In p nodes -> p <> null /\ hget h p = Some (node_of h p) /\ esorted (nedges (node_of h p))).
  { intros p I. apply In' in I. destruct I as (w & P). destruct (S w p P) as (Np & n & G & So). unfold node_of. rewrite G. auto. }
  assert (Cl : forall p c q, In p nodes -> In (c, q) (nedges (node_of h p)) -> In q nodes).
  { intros p c q I E. apply In'. destruct (At p I) as (_ & G & _). apply In' in I. eapply reach_step; eauto. }
  exists (story h nodes), nodes, (before h nodes).
  assert (So : forall p, In p nodes -> esorted (nedges (node_of h p))) by (intros p I; apply At, I).
  split; [now apply story_orderly|]. split; [reflexivity|]. split; [apply story_still; [exact So|cbn; lia]|]. split; [apply story_stands; auto; intros p I; split; apply At, I|].
  split; [intros x L; now apply story_still|]. auto.
Qed.
