(** * DawgProofs: what sorted_dawg and histories of add calls leave in memory. *)
From Coq Require Import Sorting.Sorted.
From Verif Require Import Base Spec ModelHash ModelDawg SpecDawg TreeProofs HeapProofs
  BuildProofs BuildProofs2 IterProofs.

(** ** Orders *)
Lemma lex_trans : forall u v w, lex_lt u v -> lex_lt v w -> lex_lt u w.
Proof.
  intros u v w H. revert w. induction H; intros x X; inversion X; subst.
  - constructor.
  - constructor.
  - apply lex_head; lia.
  - apply lex_head; auto.
  - apply lex_head; auto.
  - apply lex_tail; auto.
Qed.

Lemma lex_irrefl : forall v, ~ lex_lt v v.
Proof. intros v H. remember v as w in H at 2. revert Heqw. induction H; intros E; inversion E; subst; auto; lia. Qed.

Lemma lex_total : forall u v, lex_lt u v \/ u = v \/ lex_lt v u.
Proof.
  induction u as [|a u IH]; intros [|b v]; auto.
  - left; constructor.
  - right; right; constructor.
  - destruct (N.lt_total (uchar a) (uchar b)) as [L|[L|L]].
    + left; apply lex_head; auto.
    + apply uchar_inj in L. subst b. destruct (IH v) as [X|[->|X]]; auto.
      * left; apply lex_tail; auto.
      * right; right; apply lex_tail; auto.
    + right; right; apply lex_head; auto.
Qed.

Lemma lex_le_not_lt : forall u v, lex_le u v <-> ~ lex_lt v u.
Proof.
  intros. unfold lex_le. split.
  - intros [->|H] X; [eapply lex_irrefl; eauto|]. eapply lex_irrefl. eapply lex_trans; eauto.
  - intros H. destruct (lex_total u v) as [X|[X|X]]; auto. tauto.
Qed.

Lemma lex_nil_le : forall v, ~ lex_lt v [].
Proof. intros v H. inversion H. Qed.

Lemma ascending_cons : forall v l, sorted_by lex_le (v :: l) <->
  (match l with [] => True | w :: _ => ~ lex_lt w v end) /\ ascending l.
Proof.
  intros v l. unfold ascending. split.
  - intros H. inversion H; subst; split; auto; try constructor. apply lex_le_not_lt; auto.
  - intros [H1 H2]. destruct l; constructor; auto. apply lex_le_not_lt; auto.
Qed.

Lemma ascending_nil_cons : forall l, sorted_by lex_le ([] :: l) <-> ascending l.
Proof.
  intros. rewrite ascending_cons. split; [tauto|]. intros; split; auto. destruct l; auto. apply lex_nil_le.
Qed.

Lemma ascending_dec : forall l, {ascending l} + {~ ascending l}.
Proof.
  assert (forall l v, {sorted_by lex_le (v :: l)} + {~ sorted_by lex_le (v :: l)}) as H.
  { induction l as [|w l IH]; intros v.
    - left; constructor.
    - destruct (lex_lt_dec w v) as [L|L].
      + right. rewrite ascending_cons. tauto.
      + destruct (IH w) as [Y|N].
        * left. rewrite ascending_cons. auto.
        * right. rewrite ascending_cons. tauto. }
  intros l. destruct (H l []) as [Y|N]; rewrite ascending_nil_cons in *; auto.
Qed.

(** ** add_all *)
Definition short (B : nat) (ts : list str) : Prop := forall t, In t ts -> length t < B.

Lemma short_cons : forall B t ts, short B (t :: ts) <-> length t < B /\ short B ts.
Proof.
  intros. unfold short. split.
  - intros H. split; [apply H; left; auto | intros; apply H; right; auto].
  - intros [H1 H2] x [<-|I]; auto.
Qed.

Lemma short_ex : forall ts, exists B, 1 <= B /\ short B ts.
Proof.
  induction ts as [|t ts (B & HB & HS)].
  - exists 1. split; auto. intros ? [].
  - exists (Nat.max B (S (length t))). split; [lia|]. apply short_cons. split; [lia|].
    intros x I. specialize (HS x I). lia.
Qed.

Lemma wadd_assoc_1 : forall a n, wadd a (N.of_nat (S n) mod W) = wadd (wadd a 1) (N.of_nat n mod W).
Proof.
  intros. unfold wadd.
  rewrite N.add_mod_idemp_r, N.add_mod_idemp_l, N.add_mod_idemp_r by (unfold W; lia).
  f_equal. lia.
Qed.

Lemma wadd_mod_0 : forall a, (a < W)%N -> wadd a (N.of_nat 0 mod W) = a.
Proof.
  intros. unfold wadd. rewrite N.add_mod_idemp_r by (unfold W; lia).
  rewrite N.add_0_r. apply N.mod_small; auto.
Qed.

Lemma wadd_lt : forall a b, (wadd a b < W)%N.
Proof. intros. unfold wadd. apply N.mod_lt. unfold W; lia. Qed.

Lemma adds_ok : forall alloc, allocator alloc -> forall ts B h0 h b t w frs t0,
  binv B h0 h b t w frs t0 -> short B ts -> (d_size (b_dawg b) < W)%N ->
  exists flags kept h' b' w' frs' t0',
    greedy (b_prev b) ts flags kept /\
    (forall fuel, B <= fuel -> adds fuel alloc h b ts = Ok (flags, h', b')) /\
    binv B h0 h' b' (trie_from t kept) w' frs' t0' /\
    b_prev b' = last kept (b_prev b) /\
    d_root (b_dawg b') = d_root (b_dawg b) /\
    d_size (b_dawg b') = wadd (d_size (b_dawg b)) (N.of_nat (length kept) mod W).
Proof.
  intros alloc A. induction ts as [|x ts IH]; intros B h0 h b t w frs t0 BI Sh Lt.
  - exists [], [], h, b, w, frs, t0. split; [constructor|]. split; [auto|].
    split; [auto|]. split; [auto|]. split; [auto|]. cbn [length]. rewrite wadd_mod_0; auto.
  - apply short_cons in Sh. destruct Sh as [Lx Sh].
    destruct (lex_lt_dec x (b_prev b)) as [L|L].
    + destruct (IH B h0 h b t w frs t0 BI Sh Lt) as (flags & kept & h' & b' & w' & frs' & t0' & G & E & BI' & P & R & S).
      exists (false :: flags), kept, h', b', w', frs', t0'. split; [constructor; auto|].
      split; [|auto]. intros fuel Hf. cbn. rewrite add_reject by auto. cbn. rewrite E by auto. auto.
    + destruct (add_ok alloc B h0 h b t w frs t0 x A BI Lx L) as (h1 & b1 & w1 & frs1 & t1 & E1 & BI1 & P1 & R1 & S1).
      destruct (IH B h0 h1 b1 _ w1 frs1 t1 BI1 Sh) as (flags & kept & h' & b' & w' & frs' & t0' & G & E & BI' & P & R & S).
      { rewrite S1. apply wadd_lt. }
      exists (true :: flags), (x :: kept), h', b', w', frs', t0'.
      split. { constructor; auto. rewrite <- P1. auto. }
      split. { intros fuel Hf. cbn. rewrite E1 by auto. cbn. rewrite E by auto. auto. }
      split; [auto|]. split. { rewrite P, P1. symmetry. apply last_cons. }
      split; [congruence|]. rewrite S, S1. cbn [length]. symmetry. apply wadd_assoc_1.
Qed.

Lemma greedy_sorted : forall prev ts, sorted_by lex_le (prev :: ts) ->
  greedy prev ts (repeat true (length ts)) ts.
Proof.
  intros prev ts. revert prev. induction ts as [|t ts IH]; intros prev H; cbn; [constructor|].
  apply ascending_cons in H. destruct H as [H1 H2]. constructor; auto.
Qed.

Lemma greedy_det : forall prev ts f1 k1, greedy prev ts f1 k1 -> forall f2 k2, greedy prev ts f2 k2 -> f1 = f2 /\ k1 = k2.
Proof.
  intros prev ts f1 k1 H. induction H; intros f2 k2 H2; inversion H2; subst; auto; try tauto.
  - destruct (IHgreedy _ _ H8) as [-> ->]. auto.
  - destruct (IHgreedy _ _ H8) as [-> ->]. auto.
Qed.

Lemma greedy_kept_sorted : forall prev ts flags kept, greedy prev ts flags kept -> sorted_by lex_le (prev :: kept).
Proof.
  intros prev ts flags kept H. induction H; auto.
  - constructor.
  - constructor; auto. apply lex_le_not_lt; auto.
Qed.

Lemma add_all_adds : forall ts fuel alloc h b h' b',
  adds fuel alloc h b ts = Ok (repeat true (length ts), h', b') -> add_all fuel alloc h b ts = Ok (h', Some b').
Proof.
  induction ts as [|x ts IH]; intros fuel alloc h b h' b' E; cbn in *.
  - injection E as <- <-. auto.
  - destruct (add fuel alloc h b x) as [[[r h1] b1]| |]; cbn in *; try discriminate.
    destruct (adds fuel alloc h1 b1 ts) as [[[rs h2] b2]| |] eqn:E2; cbn in *; try discriminate.
    injection E as -> Er -> ->. rewrite Er in E2. apply IH; auto.
Qed.

Lemma add_all_fail : forall alloc, allocator alloc -> forall ts B h0 h b t w frs t0,
  binv B h0 h b t w frs t0 -> short B ts -> ~ sorted_by lex_le (b_prev b :: ts) ->
  exists enough h', (forall fuel, enough <= fuel -> add_all fuel alloc h b ts = Ok (h', None)) /\ same_heap h' h0.
Proof.
  intros alloc A. induction ts as [|x ts IH]; intros B h0 h b t w frs t0 BI Sh NS.
  - exfalso. apply NS. constructor.
  - apply short_cons in Sh. destruct Sh as [Lx Sh].
    destruct (lex_lt_dec x (b_prev b)) as [L|L].
    + destruct (destroy_ok B h0 h b w frs t0) as (en & h' & E & S).
      { apply BI. } { apply BI. }
      exists en, h'. split; auto. intros fuel Hf. cbn. rewrite add_reject by auto. cbn. rewrite E by auto. auto.
    + destruct (add_ok alloc B h0 h b t w frs t0 x A BI Lx L) as (h1 & b1 & w1 & frs1 & t1 & E1 & BI1 & P1 & R1 & S1).
      destruct (IH B h0 h1 b1 _ w1 frs1 t1 BI1 Sh) as (en & h' & E & S).
      { rewrite P1. intros X. apply NS. apply ascending_cons. split; auto. }
      exists (Nat.max en B), h'. split; auto. intros fuel Hf. cbn. rewrite E1 by lia. cbn. apply E. lia.
Qed.

(** ** The dictionary in memory *)
Record built (h0 h : heap) (d : dawg) (ts : list str) : Prop := {
  bu_tree : unf h (d_root d) (trie ts);
  bu_size : d_size d = (N.of_nat (length ts) mod W)%N;
  bu_min : forall p q t, reach h (d_root d) p -> reach h (d_root d) q -> unf h p t -> unf h q t -> p = q;
  bu_new : forall p, reach h (d_root d) p -> hget h0 p = None;
  bu_rest : forall p, ~ reach h (d_root d) p -> hget h p = hget h0 p;
}.

Lemma inv_minimal : forall B h0 h root w t, inv B h0 h root w [] t -> w_unchecked w = [] ->
  forall p q tp, reach h root p -> reach h root q -> unf h p tp -> unf h q tp -> p = q.
Proof.
  intros B h0 h root w t I Un p q tp Rp Rq Up Uq.
  pose proof (iv_top _ _ _ _ _ _ _ I) as Ut. rewrite Un in Ut. cbn in Ut.
  assert (Hroot : forall r, reach h root r -> unf h r t -> r = root).
  { intros r R U. destruct (N.eq_dec r root) as [->|Nr]; auto.
    destruct (reach_proper _ _ _ _ Ut R Nr) as (t' & U' & Lt).
    assert (t' = t) by (eapply unf_det; eauto). subst. lia. }
  destruct (inv_reach _ _ _ _ _ _ _ _ I Rp) as [->|Jp].
  - assert (tp = t) by exact (unf_det _ _ _ _ Up Ut). subst tp. symmetry. apply Hroot; auto.
  - destruct (inv_reach _ _ _ _ _ _ _ _ I Rq) as [->|Jq].
    + assert (tp = t) by exact (unf_det _ _ _ _ Uq Ut). subst tp. apply Hroot; auto.
    + apply in_map_iff in Jp. apply in_map_iff in Jq.
      destruct Jp as (e1 & <- & J1). destruct Jq as (e2 & <- & J2).
      eapply mi_inj; eauto. apply I.
Qed.

Lemma built_clean : forall B h0 h h' root w ts size, inv B h0 h root w [] (trie ts) -> w_unchecked w = [] ->
  size = (N.of_nat (length ts) mod W)%N ->
  (forall p, reach h root p -> hget h' p = hget h p /\ hget h0 p = None) ->
  (forall p, ~ reach h root p -> hget h' p = hget h0 p) ->
  built h0 h' (Dawg root size) ts.
Proof.
  intros B h0 h h' root w ts size I Un Hs R1 R2.
  pose proof (iv_top _ _ _ _ _ _ _ I) as Ut. rewrite Un in Ut. cbn in Ut.
  assert (Re : forall p, reach h' root p <-> reach h root p).
  { intros p. apply reach_frame. intros; apply R1; auto. }
  constructor; cbn; auto.
  - eapply unf_frame with (P := reach h root); eauto using reach_closed, reach_refl. intros; apply R1; auto.
  - intros p q t Rp Rq Up Uq. apply Re in Rp, Rq.
    assert (C : closed h' (reach h root)).
    { intros x n c y Rx G J. apply Re in Rx. apply Re. eapply reach_step; eauto. }
    eapply inv_minimal; eauto.
    + eapply unf_frame with (P := reach h root); eauto. intros; symmetry; apply R1; auto.
    + eapply unf_frame with (P := reach h root); eauto. intros; symmetry; apply R1; auto.
  - intros p R. apply Re in R. apply R1; auto.
  - intros p NR. rewrite Re in NR. apply R2; auto.
Qed.

Lemma new_init : forall alloc h0, exists h1 b1, new_sorted_dawg alloc h0 = (h1, b1).
Proof. intros. destruct (new_sorted_dawg alloc h0) as [h1 b1]. eauto. Qed.

Theorem sorted_dawg_full : forall alloc h0 ts, allocator alloc -> ascending ts ->
  exists h b, runs_to (fun fuel => sorted_dawg fuel alloc h0 ts) (h, Some b) /\
    built h0 h (b_dawg b) ts /\ b_work b = None /\ b_prev b = last ts [].
Proof.
  intros alloc h0 ts A As.
  destruct (short_ex ts) as (B & HB & Sh).
  destruct (new_init alloc h0) as (h1 & b1 & E1).
  destruct (new_sorted_dawg_ok alloc B h0 A HB h1 b1 E1) as (BI & P1 & S1).
  destruct (adds_ok alloc A ts B h0 h1 (init b1) leaf _ _ _ BI Sh) as
    (flags & kept & h2 & b2 & w2 & frs2 & t2 & G & E2 & BI2 & P2 & R2 & S2).
  { rewrite S1. unfold W; lia. }
  destruct (greedy_det _ _ _ _ G _ _ (greedy_sorted (b_prev (init b1)) ts
    ltac:(rewrite P1; apply ascending_nil_cons; auto))) as [-> ->].
  destruct (finish_ok B h0 h2 b2 _ w2 frs2 t2 BI2) as (h3 & w3 & E3 & I3 & U3).
  destruct (clean_up_ok B h0 h3 (Builder (b_dawg b2) (b_prev b2) (Some w3)) w3 [] _ eq_refl I3)
    as (en & h4 & E4 & C1 & C2). cbn [b_dawg b_prev] in *.
  exists h4, (Builder (b_dawg b2) (b_prev b2) None). split; [|split; [|split; [auto|cbn; rewrite P2, P1; auto]]].
  - exists (Nat.max B en). intros fuel Hf. unfold sorted_dawg. rewrite E1.
    rewrite (add_all_adds _ _ _ _ _ _ _ (E2 fuel ltac:(lia))). cbn [rbind].
    rewrite E3 by lia. cbn [rbind]. rewrite E4 by lia. auto.
  - cbn [b_dawg]. destruct (b_dawg b2) as [root size] eqn:Eb. cbn in *.
    eapply built_clean; eauto.
    rewrite S2, S1. unfold wadd. rewrite N.add_0_l. apply N.mod_mod. unfold W; lia.
Qed.

Theorem sorted_dawg_ok : forall alloc h0 ts, allocator alloc -> ascending ts ->
  exists h b, runs_to (fun fuel => sorted_dawg fuel alloc h0 ts) (h, Some b) /\
    built h0 h (b_dawg b) ts /\ b_work b = None.
Proof. intros. destruct (sorted_dawg_full alloc h0 ts) as (h & b & R & Bu & Wk & _); eauto. Qed.

Theorem sorted_dawg_fail : forall alloc h0 ts, allocator alloc -> ~ ascending ts ->
  exists h, runs_to (fun fuel => sorted_dawg fuel alloc h0 ts) (h, None) /\ same_heap h h0.
Proof.
  intros alloc h0 ts A As.
  destruct (short_ex ts) as (B & HB & Sh).
  destruct (new_init alloc h0) as (h1 & b1 & E1).
  destruct (new_sorted_dawg_ok alloc B h0 A HB h1 b1 E1) as (BI & P1 & S1).
  destruct (add_all_fail alloc A ts B h0 h1 (init b1) leaf _ _ _ BI Sh) as (en & h' & E & S).
  { rewrite P1, ascending_nil_cons. auto. }
  exists h'. split; auto. exists en. intros fuel Hf. unfold sorted_dawg. rewrite E1, E by auto. auto.
Qed.

Lemma runs_to_det : forall A (f : nat -> res A) a b, runs_to f a -> runs_to f b -> a = b.
Proof.
  intros A f a b [n Hn] [m Hm]. specialize (Hn (n + m) ltac:(lia)). specialize (Hm (n + m) ltac:(lia)). congruence.
Qed.

(** What a successful call means, for use in the property theorems. *)
Lemma sorted_dawg_built : forall alloc h0 ts h b, allocator alloc ->
  runs_to (fun fuel => sorted_dawg fuel alloc h0 ts) (h, Some b) ->
  ascending ts /\ built h0 h (b_dawg b) ts /\ b_work b = None.
Proof.
  intros alloc h0 ts h b A R. destruct (ascending_dec ts) as [As|As].
  - destruct (sorted_dawg_ok alloc h0 ts A As) as (h' & b' & R' & Bu & Wk).
    pose proof (runs_to_det _ _ _ _ R R') as E. injection E as <- <-. auto.
  - destruct (sorted_dawg_fail alloc h0 ts A As) as (h' & R' & _).
    pose proof (runs_to_det _ _ _ _ R R') as E. discriminate.
Qed.

Lemma sorted_dawg_prev : forall alloc h0 ts h b, allocator alloc ->
  runs_to (fun fuel => sorted_dawg fuel alloc h0 ts) (h, Some b) -> b_prev b = last ts [].
Proof.
  intros alloc h0 ts h b A R. destruct (sorted_dawg_built _ _ _ _ _ A R) as (As & _).
  destruct (sorted_dawg_full alloc h0 ts A As) as (h' & b' & R' & _ & _ & P).
  pose proof (runs_to_det _ _ _ _ R R') as E. injection E as <- <-. auto.
Qed.

(** ** Histories of add calls *)
Lemma under_construction_gen : forall alloc h0 ts k, allocator alloc ->
  exists B, k <= B /\ exists flags kept h b w frs t0,
    greedy [] ts flags kept /\
    (forall fuel, B <= fuel -> under_construction fuel alloc h0 ts = Ok (flags, h, b)) /\
    binv B h0 h b (trie kept) w frs t0 /\ b_prev b = last kept [] /\
    d_size (b_dawg b) = (N.of_nat (length kept) mod W)%N.
Proof.
  intros alloc h0 ts k A.
  destruct (short_ex ts) as (B0 & HB0 & Sh0).
  assert (exists B, k <= B /\ 1 <= B /\ short B ts) as (B & Hk & HB & Sh).
  { exists (Nat.max k B0). split; [lia|]. split; [lia|]. intros t I. specialize (Sh0 t I). lia. }
  destruct (new_init alloc h0) as (h1 & b1 & E1).
  destruct (new_sorted_dawg_ok alloc B h0 A HB h1 b1 E1) as (BI & P1 & S1).
  destruct (adds_ok alloc A ts B h0 h1 (init b1) leaf _ _ _ BI Sh) as
    (flags & kept & h2 & b2 & w2 & frs2 & t2 & G & E2 & BI2 & P2 & R2 & S2).
  { rewrite S1. unfold W; lia. }
  exists B. split; auto. exists flags, kept, h2, b2, w2, frs2, t2.
  rewrite P1 in *. split; [auto|]. split.
  { intros fuel Hf. unfold under_construction. rewrite E1. auto. }
  split; [exact BI2|]. split; [auto|].
  rewrite S2, S1. unfold wadd. rewrite N.add_0_l. apply N.mod_mod. unfold W; lia.
Qed.

Lemma under_construction_ok : forall alloc h0 ts, allocator alloc ->
  exists B flags kept h b w frs t0,
    greedy [] ts flags kept /\
    (forall fuel, B <= fuel -> under_construction fuel alloc h0 ts = Ok (flags, h, b)) /\
    binv B h0 h b (trie kept) w frs t0 /\ b_prev b = last kept [] /\
    d_size (b_dawg b) = (N.of_nat (length kept) mod W)%N.
Proof.
  intros alloc h0 ts A. destruct (under_construction_gen alloc h0 ts 0 A) as (B & _ & X). exists B. exact X.
Qed.

Lemma finished_ok : forall alloc h0 ts, allocator alloc ->
  exists B flags kept h b w,
    greedy [] ts flags kept /\
    (forall fuel, B <= fuel -> finished fuel alloc h0 ts = Ok (flags, h, b)) /\
    inv B h0 h (d_root (b_dawg b)) w [] (trie kept) /\ w_unchecked w = [] /\ b_work b = Some w /\
    d_size (b_dawg b) = (N.of_nat (length kept) mod W)%N.
Proof.
  intros alloc h0 ts A.
  destruct (under_construction_ok alloc h0 ts A) as (B & flags & kept & h & b & w & frs & t0 & G & E & BI & P & S).
  destruct (finish_ok B h0 h b _ w frs t0 BI) as (h3 & w3 & E3 & I3 & U3).
  exists B, flags, kept, h3, (Builder (b_dawg b) (b_prev b) (Some w3)), w3.
  split; [auto|]. split; [|auto].
  intros fuel Hf. unfold finished. rewrite E by auto. cbn. rewrite E3 by auto. auto.
Qed.

Lemma cleaned_destroy_ok : forall h0 h1 b t,
  b_work b = None -> unf h1 (d_root (b_dawg b)) t ->
  (forall p, reach h1 (d_root (b_dawg b)) p -> hget h0 p = None) ->
  (forall p, ~ reach h1 (d_root (b_dawg b)) p -> hget h1 p = hget h0 p) ->
  exists h', runs_to (fun fuel => destroy fuel h1 b) h' /\ same_heap h' h0.
Proof.
  intros h0 h1 b t Wk U R1 R2.
  destruct (destroy_dawg_all h1 (b_dawg b) t U) as (h2 & E2 & D1 & D2).
  exists h2. split.
  - exists (tsize t + 2). intros fuel Hf. unfold destroy, clean_up. rewrite Wk. cbn. auto.
  - intros p. destruct (all_nodes_all h1 (b_dawg b) t U) as (nodes & _ & _ & In0).
    destruct (in_dec N.eq_dec p nodes) as [J|J].
    + apply In0 in J. rewrite D1 by auto. symmetry. auto.
    + rewrite In0 in J. rewrite D2 by auto. auto.
Qed.

Lemma destroy_built : forall h0 h b ts, built h0 h (b_dawg b) ts -> b_work b = None ->
  exists h', runs_to (fun fuel => destroy fuel h b) h' /\ same_heap h' h0.
Proof. intros h0 h b ts [] Wk. eapply cleaned_destroy_ok; eauto. Qed.

Theorem lifetime_ok : forall alloc h0 ts fin cl, allocator alloc ->
  exists h', runs_to (fun fuel => lifetime fuel alloc h0 ts fin cl) h' /\ same_heap h' h0.
Proof.
  intros alloc h0 ts fin cl A.
  destruct (under_construction_ok alloc h0 ts A) as (B & flags & kept & h & b & w & frs & t0 & G & E & BI & P & S).
  (* after the optional finish *)
  assert (exists h2 b2 w2 frs2 t2, (forall fuel, B <= fuel -> (if fin then finish fuel h b else Ok (h, b)) = Ok (h2, b2)) /\
    b_work b2 = Some w2 /\ inv B h0 h2 (d_root (b_dawg b2)) w2 frs2 t2) as (h2 & b2 & w2 & frs2 & t2 & E2 & W2 & I2).
  { destruct fin.
    - destruct (finish_ok B h0 h b _ w frs t0 BI) as (h3 & w3 & E3 & I3 & U3).
      eexists _, _, w3, [], _. split; [exact E3|]. split; [auto|exact I3].
    - exists h, b, w, frs, t0. split; [auto|]. split; apply BI. }
  destruct cl.
  - destruct (clean_up_ok B h0 h2 b2 w2 frs2 t2 W2 I2) as (en & h3 & E3 & C1 & C2).
    destruct (inv_unf _ _ _ _ _ _ _ _ I2 (or_introl eq_refl)) as (tr & U).
    assert (Re : forall p, reach h3 (d_root (b_dawg b2)) p <-> reach h2 (d_root (b_dawg b2)) p).
    { intros p. apply reach_frame. intros; apply C1; auto. }
    destruct (cleaned_destroy_ok h0 h3 (Builder (b_dawg b2) (b_prev b2) None) tr) as (h' & [en' E'] & SH); cbn; auto.
    + eapply unf_frame with (P := reach h2 (d_root (b_dawg b2))); eauto using reach_closed, reach_refl.
      intros; apply C1; auto.
    + intros p R. apply Re in R. apply C1; auto.
    + intros p R. rewrite Re in R. apply C2; auto.
    + exists h'. split; auto. exists (Nat.max B (Nat.max en en')). intros fuel Hf.
      unfold lifetime. rewrite E by lia. cbn [rbind]. rewrite E2 by lia. cbn [rbind].
      rewrite E3 by lia. cbn [rbind]. apply E'. lia.
  - destruct (destroy_ok B h0 h2 b2 w2 frs2 t2 W2 I2) as (en & h' & E' & SH).
    exists h'. split; auto. exists (Nat.max B en). intros fuel Hf.
    unfold lifetime. rewrite E by lia. cbn [rbind]. rewrite E2 by lia. cbn [rbind]. apply E'. lia.
Qed.

(** ** Before finish *)
Lemma frames_bottom : forall h root un frs t0, frames h root un frs -> un <> [] ->
  exists n es c sub rest, hget h root = Some n /\ unfs h (nedges n) es /\
    edge_get es c = None /\ fill frs t0 = T (nfin n) (edge_set es c sub) /\ labels un = c :: rest.
Proof.
  intros h root un frs t0 F. revert t0. induction F as [|c t un frs n es G U Lt F IH]; intros t0 NE; [congruence|].
  destruct un as [|x un'].
  - inversion F; subst. cbn in *. exists n, es, c, t0, []. repeat split; auto.
    pose proof (unfs_get _ _ _ c U) as X. destruct (edge_get (nedges n) c) eqn:Ge; [|auto].
    apply edge_get_In in Ge. apply Lt in Ge. lia.
  - destruct (IH (T (nfin n) (edge_set es c t0)) ltac:(discriminate)) as (n' & es' & c' & sub & rest & G' & U' & Gc & Fi & La).
    exists n', es', c', sub, (rest ++ [c]). repeat split; auto.
    change (labels (x :: un') ++ [c] = (c' :: rest) ++ [c]). rewrite La. auto.
Qed.

Lemma unfinished_tree : forall B h0 h b t w frs t0, binv B h0 h b t w frs t0 ->
  exists tr, unf h (d_root (b_dawg b)) tr /\
    forall u, tin tr u = true <-> tin t u = true /\
      match u, b_prev b with c :: _, d :: _ => c <> d | _, _ => True end.
Proof.
  intros B h0 h b t w frs t0 [Hw I Ht Hh Hp Hn].
  destruct (w_unchecked w) as [|x un] eqn:Eu.
  - pose proof (iv_frames _ _ _ _ _ _ _ I) as F. rewrite Eu in F. inversion F; subst.
    pose proof (iv_top _ _ _ _ _ _ _ I) as U. rewrite Eu in U. cbn in *.
    exists t0. split; auto. intros u. rewrite <- Hp. destruct u; tauto.
  - pose proof (iv_frames _ _ _ _ _ _ _ I) as F. rewrite Eu in F.
    destruct (frames_bottom _ _ _ _ t0 F ltac:(discriminate)) as (n & es & c & sub & rest & G & U & Gc & Fi & La).
    destruct (iv_edges _ _ _ _ _ _ _ I _ (or_introl eq_refl)) as (n' & G' & S & _).
    rewrite G in G'. injection G' as <-.
    exists (T (nfin n) es). split.
    + eapply unf_intro; eauto.
      * eapply hget_null_top; eauto. left; auto.
      * repeat split; auto.
    + intros u. rewrite <- Ht, Fi, <- Hp, La. destruct u as [|d u]; cbn; [tauto|].
      rewrite edge_get_set. destruct (ceqb_spec d c) as [[-> E]|[N E]]; rewrite E.
      * rewrite Gc. split; [discriminate|]. intros [_ X]. congruence.
      * tauto.
Qed.

(** ** Equality of dictionaries *)
Lemma built_frame : forall h0 h d ts h', built h0 h d ts ->
  (forall p, reach h (d_root d) p -> hget h' p = hget h p) -> unf h' (d_root d) (trie ts).
Proof.
  intros h0 h d ts h' B E. eapply unf_frame with (P := reach h (d_root d)); eauto using reach_closed, reach_refl.
  apply B.
Qed.

Lemma built_preserves : forall h0 h d ts p t, built h0 h d ts -> unf h0 p t -> unf h p t.
Proof.
  intros h0 h d ts p t B U.
  eapply unf_frame with (P := reach h0 p); eauto using reach_closed, reach_refl.
  intros q R. destruct (unf_reach_alloc _ _ _ _ U R) as (_ & n & G).
  destruct (all_nodes_all h d (trie ts)) as (nodes & _ & _ & In0); [apply B|].
  destruct (in_dec N.eq_dec q nodes) as [J|J]; rewrite In0 in J.
  - apply (bu_new _ _ _ _ B) in J. congruence.
  - apply (bu_rest _ _ _ _ B); auto.
Qed.

Lemma dawg_eq_ok : forall h d1 d2 t1 t2, unf h (d_root d1) t1 -> unf h (d_root d2) t2 ->
  exists r, runs_to (fun fuel => dawg_eq fuel h d1 d2) r /\
    (r = true <-> d_size d1 = d_size d2 /\ t1 = t2).
Proof.
  intros h d1 d2 t1 t2 U1 U2.
  destruct (unf_read _ _ _ U1) as (n1 & R1 & G1 & N1). destruct (unf_read _ _ _ U2) as (n2 & R2 & G2 & N2).
  destruct (node_eq_all (height t1) h n1 n2 t1 t2 N1 N2) as (r & E & I); [lia|].
  destruct (N.eqb (d_size d1) (d_size d2)) eqn:Es.
  - exists r. split.
    + exists (height t1). intros fuel Hf. unfold dawg_eq. rewrite Es, R1, R2. cbn. auto.
    + apply N.eqb_eq in Es. tauto.
  - exists false. split.
    + exists 0. intros fuel Hf. unfold dawg_eq. rewrite Es. auto.
    + apply N.eqb_neq in Es. split; [discriminate|tauto].
Qed.

(** ** Hash codes agree with equality *)
Definition sorted_nodes (h : heap) : Prop := forall p n, hget h p = Some n -> esorted (nedges n).

Lemma esorted_nodup : forall A (es : list (char * A)), esorted es -> NoDup (map fst es).
Proof.
  intros A es S. unfold esorted in S. induction S as [|[d x] es S IHS F]; cbn; constructor; auto.
  intros I. apply in_map_iff in I. destruct I as ([d' x'] & <- & I).
  rewrite Forall_forall in F. specialize (F _ I). unfold elt in F; cbn in F. lia.
Qed.

Lemma node_eq_hash : forall fuel h a b, sorted_nodes h -> esorted (nedges a) -> esorted (nedges b) ->
  node_eq fuel h a b = Ok true ->
  exists x, node_hash fuel h a = Ok x /\ node_hash fuel h b = Ok x.
Proof.
  induction fuel as [|fuel IH]; intros h a b SN Sa Sb E; [discriminate|].
  rewrite node_eq_S in E. rewrite !node_hash_S.
  destruct (Bool.eqb (nfin a) (nfin b)) eqn:Ef; cbn in E; [|discriminate].
  destruct (Nat.eqb (length (nedges a)) (length (nedges b))) eqn:El; cbn in E; [|discriminate].
  apply Bool.eqb_prop in Ef. apply Nat.eqb_eq in El. rewrite <- Ef.
  (* every edge of a has a partner in b *)
  assert (P : forall c p, In (c, p) (nedges a) -> exists q x y, In (c, q) (nedges b) /\
     read h p = Ok x /\ read h q = Ok y /\ node_eq fuel h x y = Ok true).
  { clear El Sa. revert E. induction (nedges a) as [|[c p] es IHes]; intros E c' p' I; [destruct I|].
    cbn [eq_each] in E. destruct (N.eqb (transition b c) null) eqn:Et; [discriminate|].
    destruct (read h p) as [x| |] eqn:Rp; cbn in E; try discriminate.
    destruct (read h (transition b c)) as [y| |] eqn:Rq; cbn in E; try discriminate.
    destruct (node_eq fuel h x y) as [[|]| |] eqn:En; cbn in E; try discriminate.
    destruct I as [I|I].
    - injection I as <- <-. exists (transition b c), x, y. split; [|auto].
      unfold transition in *. destruct (edge_get (nedges b) c) eqn:Ge; [apply edge_get_In; auto|].
      rewrite N.eqb_refl in Et. discriminate.
    - apply IHes; auto. }
  (* the two edge lists have the same labels in the same order *)
  assert (Q : Forall2 (fun e f => fst e = fst f /\ exists x y, read h (snd e) = Ok x /\ read h (snd f) = Ok y /\
      node_eq fuel h x y = Ok true) (nedges a) (nedges b)).
  { clear E. revert El Sa Sb P. generalize (nedges b). induction (nedges a) as [|[c p] es IHes];
      intros [|[d q] fs] El Sa Sb P; cbn in El; try discriminate; constructor.
    - destruct (P c p (or_introl eq_refl)) as (q' & x & y & I & Rx & Ry & Ex). cbn.
      destruct I as [I|I].
      + injection I as -> ->. split; auto. eauto.
      + exfalso. (* then d has no room: labels of es all map into fs, strictly above c > d *)
        inversion Sa as [|? ? Sa' Fa]; subst. inversion Sb as [|? ? Sb' Fb]; subst.
        rewrite Forall_forall in Fa, Fb.
        assert (incl (map fst ((c, p) :: es)) (map fst fs)) as Inc.
        { intros e J. apply in_map_iff in J. destruct J as ([e' r] & <- & J). cbn [fst].
          destruct (P e' r J) as (r' & _ & _ & J' & _).
          assert (schar d < schar e')%Z.
          { specialize (Fb _ I). unfold elt in Fb; cbn in Fb. destruct J as [J|J].
            - injection J as <- <-. auto.
            - specialize (Fa _ J). unfold elt in Fa; cbn in Fa. lia. }
          destruct J' as [J'|J']; [injection J' as <- <-; lia|].
          apply in_map_iff. exists (e', r'). auto. }
        assert (ND : NoDup (map fst ((c, p) :: es))).
        { apply esorted_nodup; auto. }
        pose proof (NoDup_incl_length ND Inc) as L. rewrite !map_length in L. cbn in L. lia.
    - inversion Sa as [|? ? Sa' Fa]; subst. inversion Sb as [|? ? Sb' Fb]; subst.
      rewrite Forall_forall in Fa, Fb.
      apply IHes; auto. intros e r J. destruct (P e r (or_intror J)) as (r' & x & y & J' & X).
      exists r', x, y. split; auto. destruct J' as [J'|J']; auto.
      injection J' as <- <-.
      (* d = e > c, but c's partner is at or above d *)
      exfalso. specialize (Fa _ J). unfold elt in Fa; cbn in Fa.
      destruct (P c p (or_introl eq_refl)) as (q' & _ & _ & I & _). destruct I as [I|I].
      + injection I as <- <-. lia.
      + specialize (Fb _ I). unfold elt in Fb; cbn in Fb. lia. }
  assert (G : forall code, exists x, hash_each fuel h (nedges a) code = Ok x /\ hash_each fuel h (nedges b) code = Ok x).
  { clear - Q IH SN. induction Q as [|[c p] [d q] es fs (Ec & x & y & Rx & Ry & E) Q IHQ]; intros code.
    - exists code. auto.
    - cbn in Ec, Rx, Ry. subst d. cbn [hash_each]. rewrite Rx, Ry. cbn [rbind].
      assert (S1 : forall r z, read h r = Ok z -> esorted (nedges z)).
      { intros r z R. unfold read in R. destruct (N.eqb r null); [discriminate|].
        destruct (hget h r) eqn:G; cbn in R; [|discriminate]. injection R as <-. eapply SN; eauto. }
      destruct (IH h x y SN (S1 _ _ Rx) (S1 _ _ Ry) E) as (k & E1 & E2). rewrite E1, E2. cbn [rbind]. apply IHQ. }
  destruct (G DEADBEEF) as (x & G1 & G2). rewrite G1, G2. cbn. eauto.
Qed.
