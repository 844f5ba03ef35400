(** * AlphabetProofs: distances between strings whose letters are exchanged, that
    are joined, cut, or have no letter in common. *)
From Verif Require Import Base Spec SpecAlphabet AlignProofs.
Local Open Scope nat_scope.

Lemma apart_less : forall f l l', apart f l -> (forall c, In c l' -> In c l) -> apart f l'.
Proof. intros f l l' A S c d Ic Id E. apply A; auto. Qed.

Lemma aligned_map : forall f a n v w, aligned a n v w -> aligned a n (map f v) (map f w).
Proof. intros f a n v w H. induction H; cbn [map]; auto with al. Qed.

Lemma aligned_unmap : forall f a n v' w', aligned a n v' w' -> forall v w, v' = map f v -> w' = map f w ->
  apart f (v ++ w) -> aligned a n v w.
Proof.
  intros f a n v' w' H. induction H as [|n c x y H IH|n c x y H IH|n c x y H IH|n c d x y H IH|n c d x y E H IH|n c d e x y E H IH|n c d e x y E H IH];
    intros v w Ev Ew A.
  - destruct v; [|discriminate]. destruct w; [|discriminate]. constructor.
  - destruct v as [|c1 v]; [discriminate|]. destruct w as [|c2 w]; [discriminate|]. injection Ev as E1 ->. injection Ew as E2 ->.
    assert (c1 = c2) as <-. { apply A; [now left|apply in_or_app; right; now left|congruence]. }
    apply al_equal. apply IH; auto. eapply apart_less; [exact A|]. intros e I. apply in_app_or in I. apply in_or_app. cbn. tauto.
  - destruct v as [|c1 v]; [discriminate|]. injection Ev as E1 ->.
    apply al_delete. apply IH; auto. eapply apart_less; [exact A|]. intros e I. cbn. tauto.
  - destruct w as [|c2 w]; [discriminate|]. injection Ew as E2 ->.
    apply al_insert. apply IH; auto. eapply apart_less; [exact A|]. intros e I. apply in_app_or in I. apply in_or_app. cbn. tauto.
  - destruct v as [|c1 v]; [discriminate|]. destruct w as [|c2 w]; [discriminate|]. injection Ev as E1 ->. injection Ew as E2 ->.
    apply al_substitute. apply IH; auto. eapply apart_less; [exact A|]. intros e I. apply in_app_or in I. apply in_or_app. cbn. tauto.
  - destruct v as [|c1 [|d1 v]]; [discriminate|discriminate|]. destruct w as [|d2 [|c2 w]]; [discriminate|discriminate|].
    injection Ev as E1 E2 ->. injection Ew as E3 E4 ->.
    assert (c1 = c2) as <-. { apply A; [now left|apply in_or_app; right; right; now left|congruence]. }
    assert (d1 = d2) as <-. { apply A; [right; now left|apply in_or_app; right; now left|congruence]. }
    apply al_transpose; auto. apply IH; auto. eapply apart_less; [exact A|]. intros e I. apply in_app_or in I. apply in_or_app. cbn. tauto.
  - destruct v as [|c1 [|d1 v]]; [discriminate|discriminate|]. destruct w as [|e1 w]; [discriminate|].
    injection Ev as E1 E2 ->. injection Ew as E3 ->.
    apply al_merge; auto. apply IH; auto. eapply apart_less; [exact A|]. intros z I. apply in_app_or in I. apply in_or_app. cbn. tauto.
  - destruct v as [|c1 v]; [discriminate|]. destruct w as [|d1 [|e1 w]]; [discriminate|discriminate|].
    injection Ev as E1 ->. injection Ew as E2 E3 ->.
    apply al_split; auto. apply IH; auto. eapply apart_less; [exact A|]. intros z I. apply in_app_or in I. apply in_or_app. cbn. tauto.
Qed.

Lemma dst_map_le : forall f a v w, dst a (map f v) (map f w) <= dst a v w.
Proof. intros f a v w. apply dst_least, aligned_map, dst_attained. Qed.

Lemma dst_map : forall f a v w, apart f (v ++ w) -> dst a (map f v) (map f w) = dst a v w.
Proof.
  intros f a v w A. apply Nat.le_antisymm; [apply dst_map_le|]. apply dst_least.
  eapply aligned_unmap; [apply dst_attained|reflexivity|reflexivity|exact A].
Qed.

Lemma dst_join : forall a v w v' w', dst a (v ++ v') (w ++ w') <= dst a v w + dst a v' w'.
Proof. intros. apply dst_least. apply aligned_app; apply dst_attained. Qed.

(** An alignment can be cut where one wants, at a cost of at most one, and at no cost
    if every piece has at most one character on each side. *)
Lemma aligned_cut : forall a n v w, aligned a n v w -> forall v1 v2, v = v1 ++ v2 ->
  exists w1 w2 n1 n2, w = w1 ++ w2 /\ aligned a n1 v1 w1 /\ aligned a n2 v2 w2 /\
    n1 + n2 <= n + match a with STANDARD => 0 | _ => 1 end.
Proof.
  intros a n v w H. induction H as [|n c x y H IH|n c x y H IH|n c x y H IH|n c d x y H IH|n c d x y E H IH|n c d e x y E H IH|n c d e x y E H IH];
    intros v1 v2 Ev.
  - destruct v1; [|discriminate]. cbn in Ev. subst v2. exists [], [], 0, 0. repeat split; auto using al_nil. lia.
  - destruct v1 as [|c1 v1]; cbn in Ev.
    + subst v2. exists [], (c :: y), 0, n. repeat split; auto using al_nil, al_equal. lia.
    + injection Ev as <- Ev. destruct (IH _ _ Ev) as (w1 & w2 & n1 & n2 & -> & A1 & A2 & L). exists (c :: w1), w2, n1, n2.
      repeat split; auto. now apply al_equal.
  - destruct v1 as [|c1 v1]; cbn in Ev.
    + subst v2. exists [], y, 0, (S n). repeat split; auto using al_nil, al_delete. lia.
    + injection Ev as <- Ev. destruct (IH _ _ Ev) as (w1 & w2 & n1 & n2 & -> & A1 & A2 & L). exists w1, w2, (S n1), n2.
      repeat split; auto; [now apply al_delete|lia].
  - destruct (IH _ _ Ev) as (w1 & w2 & n1 & n2 & -> & A1 & A2 & L). exists (c :: w1), w2, (S n1), n2.
    repeat split; auto; [now apply al_insert|lia].
  - destruct v1 as [|c1 v1]; cbn in Ev.
    + subst v2. exists [], (d :: y), 0, (S n). repeat split; auto using al_nil, al_substitute. lia.
    + injection Ev as <- Ev. destruct (IH _ _ Ev) as (w1 & w2 & n1 & n2 & -> & A1 & A2 & L). exists (d :: w1), w2, (S n1), n2.
      repeat split; auto; [now apply al_substitute|lia].
  - destruct v1 as [|c1 [|d1 v1]]; cbn in Ev.
    + subst v2. exists [], (d :: c :: y), 0, (S n). repeat split; auto using al_nil, al_transpose. lia.
    + injection Ev as <- <-. exists [d], (c :: y), 1, (S n). repeat split; auto; [apply al_substitute, al_nil|now apply al_substitute|].
      subst a. lia.
    + injection Ev as <- <- Ev. destruct (IH _ _ Ev) as (w1 & w2 & n1 & n2 & -> & A1 & A2 & L). exists (d :: c :: w1), w2, (S n1), n2.
      repeat split; auto; [now apply al_transpose|lia].
  - destruct v1 as [|c1 [|d1 v1]]; cbn in Ev.
    + subst v2. exists [], (e :: y), 0, (S n). repeat split; auto using al_nil, al_merge. lia.
    + injection Ev as <- <-. exists [e], y, 1, (S n). repeat split; auto; [apply al_substitute, al_nil|now apply al_delete|].
      subst a. lia.
    + injection Ev as <- <- Ev. destruct (IH _ _ Ev) as (w1 & w2 & n1 & n2 & -> & A1 & A2 & L). exists (e :: w1), w2, (S n1), n2.
      repeat split; auto; [now apply al_merge|lia].
  - destruct v1 as [|c1 v1]; cbn in Ev.
    + subst v2. exists [], (d :: e :: y), 0, (S n). repeat split; auto using al_nil, al_split. lia.
    + injection Ev as <- Ev. destruct (IH _ _ Ev) as (w1 & w2 & n1 & n2 & -> & A1 & A2 & L). exists (d :: e :: w1), w2, (S n1), n2.
      repeat split; auto; [now apply al_split|lia].
Qed.

Lemma dst_cut : forall a v1 v2 w, exists w1 w2, w = w1 ++ w2 /\
  dst a v1 w1 + dst a v2 w2 <= dst a (v1 ++ v2) w + match a with STANDARD => 0 | _ => 1 end.
Proof.
  intros a v1 v2 w. destruct (aligned_cut _ _ _ _ (dst_attained a (v1 ++ v2) w) _ _ eq_refl) as (w1 & w2 & n1 & n2 & E & A1 & A2 & L).
  exists w1, w2. split; auto. pose proof (dst_least _ _ _ _ A1). pose proof (dst_least _ _ _ _ A2). lia.
Qed.

Lemma strange_less : forall v w v' w', strange v w -> (forall c, In c v' -> In c v) -> (forall c, In c w' -> In c w) -> strange v' w'.
Proof. intros v w v' w' H A B c I J. exact (H c (A _ I) (B _ J)). Qed.

Lemma aligned_strange : forall a n v w, aligned a n v w -> strange v w ->
  length v + length w <= 3 * n /\ (a <> MERGE_AND_SPLIT -> length v <= n /\ length w <= n).
Proof.
  intros a n v w H. induction H as [|n c x y H IH|n c x y H IH|n c x y H IH|n c d x y H IH|n c d x y E H IH|n c d e x y E H IH|n c d e x y E H IH];
    intros S.
  - cbn. lia.
  - exfalso. apply (S c); now left.
  - cbn [length]. destruct IH as (I1 & I2). { eapply strange_less; [exact S| |]; cbn; auto. }
    split; [lia|]. intros N. specialize (I2 N). lia.
  - cbn [length]. destruct IH as (I1 & I2). { eapply strange_less; [exact S| |]; cbn; auto. }
    split; [lia|]. intros N. specialize (I2 N). lia.
  - cbn [length]. destruct IH as (I1 & I2). { eapply strange_less; [exact S| |]; cbn; auto. }
    split; [lia|]. intros N. specialize (I2 N). lia.
  - exfalso. apply (S c); cbn; auto.
  - cbn [length]. destruct IH as (I1 & I2). { eapply strange_less; [exact S| |]; cbn; auto. } split; [lia|]. intros N. contradiction.
  - cbn [length]. destruct IH as (I1 & I2). { eapply strange_less; [exact S| |]; cbn; auto. } split; [lia|]. intros N. contradiction.
Qed.

Lemma merge_upper : forall k v w, length v + length w <= k -> forall n, length v + length w <= 3 * n -> length v <= length w + n -> length w <= length v + n ->
  cost_le MERGE_AND_SPLIT n v w.
Proof.
  induction k as [|k IH]; intros v w Lk n L3 L1 L2.
  - destruct v; [|cbn in Lk; lia]. destruct w; [|cbn in Lk; lia]. apply cle_nil.
  - destruct v as [|c v]. { apply cle_nil_l. cbn [length] in *. lia. } destruct w as [|d w]. { apply cle_nil_r. cbn [length] in *. lia. }
    cbn [length] in *. destruct n as [|n]; [lia|].
    destruct (Nat.eq_dec (length w) (length v)) as [Eq|Ne].
    { destruct v as [|c2 v]; destruct w as [|d2 w]; cbn [length] in *; try lia.
      - apply cle_sub, cle_weaken with 0; [apply cle_nil|lia].
      - apply cle_mrg; auto. apply IH; cbn [length]; lia. }
    destruct (Nat.lt_ge_cases (length w) (length v)) as [Lt|Ge].
    + destruct v as [|c2 v]; cbn [length] in *; [lia|]. apply cle_mrg; auto. apply IH; lia.
    + destruct w as [|d2 w]; cbn [length] in *; [lia|]. apply cle_spl; auto. apply IH; lia.
Qed.

Lemma dst_strange : forall a v w, strange v w ->
  match a with
  | MERGE_AND_SPLIT => forall n, dst a v w <= n <-> length v + length w <= 3 * n /\ length v <= length w + n /\ length w <= length v + n
  | _ => dst a v w = Nat.max (length v) (length w)
  end.
Proof.
  intros a v w S. pose proof (aligned_strange _ _ _ _ (dst_attained a v w) S) as (L3 & Lo). pose proof (dst_max a v w). pose proof (dst_len a v w).
  destruct a.
  - specialize (Lo ltac:(discriminate)). lia.
  - specialize (Lo ltac:(discriminate)). lia.
  - intros n. split; [lia|]. intros (A & B & C). apply dst_le. eapply merge_upper; eauto.
Qed.

(** The order of the terms. *)
Lemma slex_map : forall f v w, slex_lt v w -> (forall c d, In c v -> In d w -> (schar c < schar d)%Z -> (schar (f c) < schar (f d))%Z) ->
  slex_lt (map f v) (map f w).
Proof.
  intros f v w H. induction H as [b w|a b v w L|a v w H IH]; intros M; cbn [map].
  - constructor.
  - apply slex_head. apply M; auto; now left.
  - apply slex_tail. apply IH. intros c d Ic Id. apply M; now right.
Qed.
