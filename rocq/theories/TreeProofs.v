(** * TreeProofs: unfoldings of automata as finite trees, and tries. *)
From Coq Require Import Sorting.Sorted.
From Verif Require Import Base ModelHash ModelDawg.

Inductive tree := T (fin : bool) (es : list (char * tree)).

Section TreeInd.
  Variable P : tree -> Prop.
  Hypothesis HT : forall f es, Forall (fun e => P (snd e)) es -> P (T f es).
  Fixpoint tree_ind' (t : tree) : P t :=
    match t with
    | T f es =>
        HT f es ((fix go (es : list (char * tree)) : Forall (fun e => P (snd e)) es :=
                 match es with
                 | [] => Forall_nil _
                 | e :: es' => Forall_cons e (tree_ind' (snd e)) (go es')
                 end) es)
    end.
End TreeInd.

Definition tfin (t : tree) := match t with T f _ => f end.
Definition tedges (t : tree) := match t with T _ es => es end.
Definition leaf : tree := T false [].

Fixpoint tin (t : tree) (w : str) {struct w} : bool :=
  match w with
  | [] => tfin t
  | c :: w' => match edge_get (tedges t) c with
               | Some t' => tin t' w'
               | None => false
               end
  end.

Definition tget (t : tree) (c : char) : tree :=
  match edge_get (tedges t) c with Some t' => t' | None => leaf end.

Fixpoint tadd (t : tree) (w : str) {struct w} : tree :=
  match w with
  | [] => T true (tedges t)
  | c :: w' => T (tfin t) (edge_set (tedges t) c (tadd (tget t c) w'))
  end.

Definition trie_from (t : tree) (l : list str) : tree := fold_left tadd l t.
Definition trie (l : list str) : tree := trie_from leaf l.

Fixpoint height (t : tree) : nat :=
  match t with
  | T _ es => S (fold_right (fun e m => Nat.max (height (snd e)) m) 0 es)
  end.

Fixpoint tsize (t : tree) : nat :=
  match t with
  | T _ es => S (fold_right (fun e m => tsize (snd e) + m) 0 es)
  end.

Fixpoint thash (t : tree) : N :=
  match t with
  | T f es =>
      murmur_key (if f then 1%N else 0%N)
        (fold_left (fun code e => murmur_key (thash (snd e)) (murmur_key (uchar (fst e)) code))
           es DEADBEEF)
  end.

(** ** Labels and edge lists *)

Lemma ceqb_true : forall a b, ceqb a b = true <-> a = b.
Proof. intros. unfold ceqb. apply Ascii.eqb_eq. Qed.

Lemma ceqb_false : forall a b, ceqb a b = false <-> a <> b.
Proof. intros. unfold ceqb. apply Ascii.eqb_neq. Qed.

Lemma ceqb_refl : forall a, ceqb a a = true.
Proof. intros. apply ceqb_true; auto. Qed.

Lemma ceqb_spec : forall a b, {a = b /\ ceqb a b = true} + {a <> b /\ ceqb a b = false}.
Proof.
  intros. destruct (ceqb a b) eqn:E; [left|right]; split; auto.
  - now apply ceqb_true.
  - now apply ceqb_false.
Qed.

Lemma uchar_bound : forall c, (uchar c < 256)%N.
Proof. intros. unfold uchar. apply N_ascii_bounded. Qed.

Lemma uchar_inj : forall a b, uchar a = uchar b -> a = b.
Proof.
  intros. unfold uchar in H. rewrite <- (ascii_N_embedding a), <- (ascii_N_embedding b). congruence.
Qed.

Lemma schar_inj : forall a b, schar a = schar b -> a = b.
Proof.
  intros a b H. apply uchar_inj. unfold schar in H.
  pose proof (uchar_bound a). pose proof (uchar_bound b).
  destruct (uchar a <? 128)%N eqn:E1, (uchar b <? 128)%N eqn:E2; lia.
Qed.

Lemma edge_get_set : forall A (es : list (char * A)) c q d,
  edge_get (edge_set es c q) d = if ceqb d c then Some q else edge_get es d.
Proof.
  induction es as [|[e r] es IH]; intros c q d; cbn.
  - destruct (ceqb d c); auto.
  - destruct (ceqb_spec c e) as [[-> E]|[N E]]; rewrite E; cbn.
    + destruct (ceqb d e); auto.
    + destruct (schar c <? schar e)%Z; cbn.
      * destruct (ceqb d c); auto.
      * rewrite IH. destruct (ceqb_spec d e) as [[-> E']|[N' E']]; rewrite E'; auto.
        destruct (ceqb_spec e c) as [[-> E2]|[N2 E2]]; [congruence|].
        rewrite E2. auto.
Qed.

Lemma edge_set_set : forall A (es : list (char * A)) c q r,
  edge_set (edge_set es c q) c r = edge_set es c r.
Proof.
  induction es as [|[e x] es IH]; intros c q r; cbn.
  - rewrite ceqb_refl. auto.
  - destruct (ceqb c e) eqn:E; cbn.
    + rewrite ceqb_refl. auto.
    + destruct (schar c <? schar e)%Z eqn:L; cbn.
      * rewrite ceqb_refl. auto.
      * rewrite E, L, IH. auto.
Qed.

Definition elt {A : Type} (a b : char * A) : Prop := (schar (fst a) < schar (fst b))%Z.
Definition esorted {A : Type} (es : list (char * A)) : Prop := StronglySorted elt es.

Lemma edge_set_In : forall A (es : list (char * A)) c q d r,
  In (d, r) (edge_set es c q) -> (d = c /\ r = q) \/ In (d, r) es.
Proof.
  induction es as [|[e x] es IH]; intros c q d r; cbn.
  - intros [H|[]]. injection H as <- <-. auto.
  - destruct (ceqb_spec c e) as [[-> E]|[N E]]; rewrite E; cbn.
    + intros [H|H]; [injection H as <- <-; auto | auto].
    + destruct (schar c <? schar e)%Z; cbn.
      * intros [H|H]; [injection H as <- <-; auto | auto].
      * intros [H|H]; [auto|]. apply IH in H. tauto.
Qed.

Lemma edge_set_sorted : forall A (es : list (char * A)) c q,
  esorted es -> esorted (edge_set es c q).
Proof.
  unfold esorted. induction es as [|[e x] es IH]; intros c q H; cbn.
  - repeat constructor.
  - inversion H as [|? ? S F]; subst.
    destruct (ceqb_spec c e) as [[-> E]|[N E]]; rewrite E; cbn.
    + constructor; auto.
    + destruct (schar c <? schar e)%Z eqn:L; cbn.
      * constructor; auto. constructor.
        -- unfold elt; cbn. lia.
        -- rewrite Forall_forall in *. intros [d y] I. specialize (F _ I).
           unfold elt in *; cbn in *. lia.
      * constructor; [apply IH; auto|].
        rewrite Forall_forall in *. intros [d y] I.
        apply edge_set_In in I. destruct I as [[-> ->]|I].
        -- unfold elt; cbn. assert (schar c <> schar e) by (intro X; apply N; apply schar_inj; auto).
           lia.
        -- apply F; auto.
Qed.

Lemma edge_get_In : forall A (es : list (char * A)) c q, edge_get es c = Some q -> In (c, q) es.
Proof.
  induction es as [|[e x] es IH]; intros c q; cbn; [discriminate|].
  destruct (ceqb_spec c e) as [[-> E]|[N E]]; rewrite E; intros H.
  - injection H as ->. auto.
  - right. auto.
Qed.

Lemma edge_In_get : forall A (es : list (char * A)) c q,
  esorted es -> In (c, q) es -> edge_get es c = Some q.
Proof.
  unfold esorted. induction es as [|[e x] es IH]; intros c q S; cbn; [intros []|].
  inversion S as [|? ? S' F]; subst.
  intros [H|H].
  - injection H as -> ->. rewrite ceqb_refl. auto.
  - destruct (ceqb_spec c e) as [[-> E]|[N E]]; rewrite E.
    + rewrite Forall_forall in F. specialize (F _ H). unfold elt in F; cbn in F. lia.
    + auto.
Qed.

Lemma edge_get_None : forall A (es : list (char * A)) c,
  edge_get es c = None <-> forall q, ~ In (c, q) es.
Proof.
  induction es as [|[e x] es IH]; intros c; cbn.
  - split; auto.
  - destruct (ceqb_spec c e) as [[-> E]|[N E]]; rewrite E.
    + split; [discriminate|]. intros H. exfalso. apply (H x). auto.
    + rewrite IH. split.
      * intros H q [X|X]; [injection X as -> ->; congruence | eapply H; eauto].
      * intros H q X. eapply H; eauto.
Qed.

Lemma edges_ext : forall A (es1 es2 : list (char * A)),
  esorted es1 -> esorted es2 -> (forall c, edge_get es1 c = edge_get es2 c) -> es1 = es2.
Proof.
  unfold esorted.
  assert (G : forall A (es1 es2 : list (char * A)) c x d y,
    esorted ((c, x) :: es1) -> esorted ((d, y) :: es2) ->
    edge_get ((d, y) :: es2) c = Some x -> edge_get ((c, x) :: es1) d = Some y -> c = d).
  { intros A es1 es2 c x d y S1 S2 G1 G2.
    apply edge_get_In in G1. apply edge_get_In in G2.
    destruct G1 as [G1|G1]; [congruence|]. destruct G2 as [G2|G2]; [congruence|].
    inversion S1 as [|? ? S1' F1]; subst. inversion S2 as [|? ? S2' F2]; subst.
    rewrite Forall_forall in F1, F2. specialize (F1 _ G2). specialize (F2 _ G1).
    unfold elt in *; cbn in *. lia. }
  intros A. induction es1 as [|[c x] es1 IH]; intros [|[d y] es2] S1 S2 E; auto.
  - specialize (E d). cbn in E. rewrite ceqb_refl in E. discriminate.
  - specialize (E c). cbn in E. rewrite ceqb_refl in E. discriminate.
  - assert (c = d).
    { eapply G; eauto.
      - rewrite <- E. cbn. now rewrite ceqb_refl.
      - rewrite E. cbn. now rewrite ceqb_refl. }
    subst d. pose proof (E c) as E1. cbn in E1. rewrite ceqb_refl in E1. injection E1 as ->.
    f_equal. inversion S1 as [|? ? S1' F1]; subst. inversion S2 as [|? ? S2' F2]; subst.
    apply IH; auto. intros d. specialize (E d). cbn in E.
    destruct (ceqb_spec d c) as [[-> X]|[N X]]; rewrite X in E; auto.
    rewrite Forall_forall in F1, F2.
    transitivity (@None A); [|symmetry]; apply edge_get_None; intros q I.
    + specialize (F1 _ I). unfold elt in F1; cbn in F1; lia.
    + specialize (F2 _ I). unfold elt in F2; cbn in F2; lia.
Qed.

(** ** Well-formed trees *)
Inductive tsorted : tree -> Prop :=
| tsorted_T : forall f es, esorted es -> Forall (fun e => tsorted (snd e)) es -> tsorted (T f es).

Definition nonempty (t : tree) : Prop := exists w, tin t w = true.

Inductive useful : tree -> Prop :=
| useful_T : forall f es,
    Forall (fun e => nonempty (snd e)) es -> Forall (fun e => useful (snd e)) es ->
    useful (T f es).

Lemma tin_tadd : forall w t u, tin (tadd t w) u = true <-> tin t u = true \/ u = w.
Proof.
  induction w as [|c w IH]; intros [f es] [|d u]; cbn.
  - tauto.
  - split; [auto|]. intros [H|H]; [auto|discriminate].
  - split; [auto|]. intros [H|H]; [auto|discriminate].
  - rewrite edge_get_set. destruct (ceqb_spec d c) as [[-> E]|[N E]]; rewrite E.
    + rewrite IH. unfold tget; cbn. destruct (edge_get es c) eqn:G.
      * split; intros [H|H]; auto; [right; congruence | injection H as ->; auto].
      * assert (X : forall v, tin leaf v = false) by (destruct v; auto). rewrite X.
        split; intros [H|H]; try discriminate; auto; [right; congruence | injection H as ->; auto].
    + split; [auto|]. intros [H|H]; [auto|]. injection H as -> ->. congruence.
Qed.

Lemma tin_trie_from : forall l t u, tin (trie_from t l) u = true <-> tin t u = true \/ In u l.
Proof.
  unfold trie_from. induction l as [|w l IH]; intros t u; cbn.
  - tauto.
  - rewrite IH, tin_tadd. split; intuition congruence.
Qed.

Lemma tin_leaf : forall v, tin leaf v = false.
Proof. destruct v; auto. Qed.

Lemma tin_trie : forall l u, tin (trie l) u = true <-> In u l.
Proof.
  intros. unfold trie. rewrite tin_trie_from, tin_leaf. split; [intros [H|H]; [discriminate|auto]|auto].
Qed.

Lemma tsorted_leaf : tsorted leaf.
Proof. constructor; constructor. Qed.

Lemma useful_leaf : useful leaf.
Proof. constructor; constructor. Qed.

Lemma tget_P : forall (P : tree -> Prop) f es c,
  P leaf -> Forall (fun e => P (snd e)) es -> P (tget (T f es) c).
Proof.
  intros. unfold tget; cbn. destruct (edge_get es c) eqn:E; auto.
  apply edge_get_In in E. rewrite Forall_forall in H0. apply (H0 _ E).
Qed.

Lemma Forall_edge_set : forall (P : tree -> Prop) es c t,
  Forall (fun e => P (snd e)) es -> P t -> Forall (fun e => P (snd e)) (edge_set es c t).
Proof.
  intros. rewrite Forall_forall in *. intros [d x] I. apply edge_set_In in I.
  destruct I as [[-> ->]|I]; auto.
Qed.

Lemma tadd_sorted : forall w t, tsorted t -> tsorted (tadd t w).
Proof.
  induction w as [|c w IH]; intros [f es] H; inversion H; subst; cbn; constructor; auto using edge_set_sorted.
  apply Forall_edge_set; auto. apply IH. apply tget_P; auto using tsorted_leaf.
Qed.

Lemma tadd_nonempty : forall w t, nonempty (tadd t w).
Proof. intros. exists w. apply tin_tadd. auto. Qed.

Lemma tadd_useful : forall w t, useful t -> useful (tadd t w).
Proof.
  induction w as [|c w IH]; intros [f es] H; inversion H; subst; cbn; constructor; auto.
  - apply Forall_edge_set; auto. apply tadd_nonempty.
  - apply Forall_edge_set; auto. apply IH. apply tget_P; auto using useful_leaf.
Qed.

Lemma trie_from_sorted : forall l t, tsorted t -> tsorted (trie_from t l).
Proof. unfold trie_from. induction l; intros; cbn; auto using tadd_sorted. Qed.

Lemma trie_sorted : forall l, tsorted (trie l).
Proof. intros. apply trie_from_sorted, tsorted_leaf. Qed.

Lemma trie_useful : forall l, useful (trie l).
Proof.
  unfold trie. intros l. generalize useful_leaf. generalize leaf. unfold trie_from.
  induction l; intros t H; cbn; auto using tadd_useful.
Qed.

Lemma trie_app : forall l w, trie (l ++ [w]) = tadd (trie l) w.
Proof. intros. unfold trie, trie_from. rewrite fold_left_app. auto. Qed.

(** A sorted tree without dead ends is determined by its words. *)
Lemma tree_ext : forall t1 t2, tsorted t1 -> tsorted t2 -> useful t1 -> useful t2 ->
  (forall w, tin t1 w = tin t2 w) -> t1 = t2.
Proof.
  induction t1 as [f1 es1 IH] using tree_ind'. intros [f2 es2] S1 S2 U1 U2 E.
  inversion S1 as [? ? So1 Fs1]; subst. inversion S2 as [? ? So2 Fs2]; subst.
  inversion U1 as [? ? Ne1 Us1]; subst. inversion U2 as [? ? Ne2 Us2]; subst.
  rewrite Forall_forall in *.
  f_equal.
  - apply (E []).
  - apply edges_ext; auto. intros c.
    assert (Ec : forall w, match edge_get es1 c with Some t => tin t w | None => false end
                         = match edge_get es2 c with Some t => tin t w | None => false end)
      by (intros w; apply (E (c :: w))).
    destruct (edge_get es1 c) as [x|] eqn:G1, (edge_get es2 c) as [y|] eqn:G2; auto.
    + apply edge_get_In in G1. apply edge_get_In in G2. f_equal.
      apply (IH _ G1); [apply (Fs1 _ G1) | apply (Fs2 _ G2) | apply (Us1 _ G1) | apply (Us2 _ G2) | auto].
    + apply edge_get_In in G1. destruct (Ne1 _ G1) as [w Hw]. cbn in Hw. rewrite Ec in Hw. discriminate.
    + apply edge_get_In in G2. destruct (Ne2 _ G2) as [w Hw]. cbn in Hw. rewrite <- Ec in Hw. discriminate.
Qed.

Lemma tin_bool_ext : forall t1 t2, (forall w, tin t1 w = true <-> tin t2 w = true) ->
  forall w, tin t1 w = tin t2 w.
Proof.
  intros t1 t2 H w. specialize (H w). destruct (tin t1 w), (tin t2 w); intuition congruence.
Qed.

Lemma trie_ext : forall l1 l2, (forall w, In w l1 <-> In w l2) -> trie l1 = trie l2.
Proof.
  intros. apply tree_ext; auto using trie_sorted, trie_useful.
  apply tin_bool_ext. intros w. rewrite !tin_trie. auto.
Qed.

(** ** Heights and sizes *)
Lemma height_edge : forall es f c t, In (c, t) es -> height t < height (T f es).
Proof.
  induction es as [|[d x] es IH]; intros f c t; cbn; [intros []|].
  intros [H|H].
  - injection H as -> ->. lia.
  - specialize (IH f c t H). cbn in IH. lia.
Qed.

Lemma tsize_edge : forall es f c t, In (c, t) es -> tsize t < tsize (T f es).
Proof.
  induction es as [|[d x] es IH]; intros f c t; cbn; [intros []|].
  intros [H|H].
  - injection H as -> ->. lia.
  - specialize (IH f c t H). cbn in IH. lia.
Qed.

Lemma height_set : forall es f c t n,
  height (T f es) <= n -> height t < n -> height (T f (edge_set es c t)) <= n.
Proof.
  induction es as [|[d x] es IH]; intros f c t n H1 H2; cbn [edge_set].
  - cbn in *. lia.
  - destruct (ceqb c d); [cbn in *; lia|].
    destruct (schar c <? schar d)%Z; [cbn in *; lia|].
    assert (height (T f es) <= n) as X by (cbn in *; lia).
    specialize (IH f c t n X H2). cbn in *. lia.
Qed.

Lemma height_leaf : height leaf = 1.
Proof. auto. Qed.

Lemma height_pos : forall t, 0 < height t.
Proof. destruct t; cbn; lia. Qed.

Lemma height_tget : forall t c, height (tget t c) <= Nat.max 1 (height t - 1).
Proof.
  intros [f es] c. unfold tget; cbn [tedges]. destruct (edge_get es c) eqn:E.
  - apply edge_get_In in E. apply (height_edge _ f) in E. lia.
  - change (height leaf) with 1. lia.
Qed.

Lemma height_tadd : forall w t n, height t <= n -> length w < n -> height (tadd t w) <= n.
Proof.
  induction w as [|c w IH]; intros t n H1 H2; cbn [tadd].
  - destruct t; cbn in *; lia.
  - cbn in H2. apply height_set.
    + destruct t; cbn in *; lia.
    + pose proof (height_tget t c).
      destruct n as [|n]; [lia|]. apply Nat.lt_succ_r. apply IH; lia.
Qed.

Lemma tsize_leaf : tsize leaf = 1.
Proof. auto. Qed.

Lemma tsize_set_new : forall es f c t, edge_get es c = None ->
  tsize (T f (edge_set es c t)) = tsize (T f es) + tsize t.
Proof.
  induction es as [|[d x] es IH]; intros f c t G; cbn [edge_set].
  - cbn. lia.
  - cbn in G. destruct (ceqb c d); [discriminate|].
    destruct (schar c <? schar d)%Z; [cbn; lia|].
    specialize (IH f c t G). cbn in *. lia.
Qed.

Lemma height_set_new : forall es f c t, edge_get es c = None ->
  height (T f (edge_set es c t)) = Nat.max (height (T f es)) (S (height t)).
Proof.
  induction es as [|[d x] es IH]; intros f c t G; cbn [edge_set].
  - cbn. lia.
  - cbn in G. destruct (ceqb c d); [discriminate|].
    destruct (schar c <? schar d)%Z; [cbn; lia|].
    specialize (IH f c t G). cbn in *. lia.
Qed.


Lemma tsize_pos : forall t, 0 < tsize t.
Proof. destruct t; cbn; lia. Qed.

Lemma tsize_set_le : forall es f c t,
  tsize (T f (edge_set es c t)) <= tsize (T f es) + tsize t.
Proof.
  induction es as [|[d x] es IH]; intros f c t; cbn [edge_set].
  - cbn. lia.
  - destruct (ceqb c d); [cbn; lia|].
    destruct (schar c <? schar d)%Z; [cbn; lia|].
    specialize (IH f c t). cbn in *. lia.
Qed.

Lemma tsize_set_old : forall es f c t t', esorted es -> edge_get es c = Some t' ->
  tsize (T f (edge_set es c t)) + tsize t' = tsize (T f es) + tsize t.
Proof.
  induction es as [|[d x] es IH]; intros f c t t' S G; cbn [edge_set].
  - discriminate.
  - inversion S as [|? ? S' F]; subst. cbn in G. destruct (ceqb c d).
    + injection G as ->. cbn. lia.
    + destruct (schar c <? schar d)%Z eqn:L.
      * apply edge_get_In in G. rewrite Forall_forall in F. specialize (F _ G).
        unfold elt in F; cbn in F. lia.
      * specialize (IH f c t t' S' G). cbn in *. lia.
Qed.

Lemma tsize_tadd : forall w t, tsorted t -> tsize (tadd t w) <= tsize t + length w.
Proof.
  induction w as [|c w IH]; intros [f es] S; cbn [tadd tedges tfin length].
  - cbn. lia.
  - inversion S as [? ? So Fs]; subst. unfold tget; cbn [tedges].
    destruct (edge_get es c) as [t'|] eqn:G.
    + assert (tsorted t') as St.
      { apply edge_get_In in G. rewrite Forall_forall in Fs. apply (Fs _ G). }
      pose proof (tsize_set_old _ f _ (tadd t' w) _ So G). specialize (IH t' St). lia.
    + rewrite tsize_set_new by auto. specialize (IH leaf tsorted_leaf). cbn [tsize leaf] in *.
      cbn in *. lia.
Qed.
