(** * MurmurInj: keys that do not collide. *)
From Coq Require Import Arith.
From Verif Require Import Base ModelHash ModelMurmur SpecMurmur MurmurProofs.
Local Open Scope N_scope.

(** ** Steps that lose nothing *)
Lemma mul_inj : forall w c c' x y, (c * c') mod w = 1 -> x < w -> y < w -> (x * c) mod w = (y * c) mod w -> x = y.
Proof.
  intros w c c' x y I Lx Ly E.
  assert (X : forall z, z < w -> (((z * c) mod w) * c') mod w = z).
  { intros z Lz. rewrite N.mul_mod_idemp_l by lia. rewrite <- N.mul_assoc, <- N.mul_mod_idemp_r, I, N.mul_1_r by lia. apply N.mod_small; auto. }
  rewrite <- (X x), <- (X y), E by auto. auto.
Qed.

Lemma lxor_inj_r : forall a x y, N.lxor a x = N.lxor a y -> x = y.
Proof.
  intros a x y E. apply (f_equal (N.lxor a)) in E. rewrite <- !N.lxor_assoc, N.lxor_nilpotent, !N.lxor_0_l in E. auto.
Qed.
Lemma lxor_inj_l : forall a x y, N.lxor x a = N.lxor y a -> x = y.
Proof. intros a x y E. rewrite !(N.lxor_comm _ a) in E. eapply lxor_inj_r; eauto. Qed.

Lemma lxor_lt : forall n x y, x < 2 ^ n -> y < 2 ^ n -> N.lxor x y < 2 ^ n.
Proof.
  intros n x y Lx Ly. destruct (N.eq_dec (N.lxor x y) 0) as [->|Z]; [apply N.neq_0_lt_0, N.pow_nonzero; lia|].
  apply N.log2_lt_pow2; [lia|]. pose proof (N.log2_lxor x y) as Lg.
  assert (forall z, z < 2 ^ n -> z <> 0 -> N.log2 z < n) as W by (intros z Lz Zz; apply N.log2_lt_pow2; lia).
  destruct (N.eq_dec x 0) as [->|Zx].
  - rewrite N.lxor_0_l in *. auto.
  - destruct (N.eq_dec y 0) as [->|Zy]; [rewrite N.lxor_0_r in *; auto|]. specialize (W x Lx Zx) as A. specialize (W y Ly Zy) as B. lia.
Qed.

Lemma shiftr_le_self : forall x k, N.shiftr x k <= x.
Proof.
  intros. rewrite N.shiftr_div_pow2. apply N.div_le_upper_bound; [apply N.pow_nonzero; lia|].
  assert (1 <= 2 ^ k) by (change 1 with (2 ^ 0); apply N.pow_le_mono_r; lia). nia.
Qed.

Lemma xor_shift_lt : forall n x k, x < 2 ^ n -> xor_shift x k < 2 ^ n.
Proof. intros n x k L. unfold xor_shift. apply lxor_lt; auto. pose proof (shiftr_le_self x k). lia. Qed.

Lemma xor_shift_inj : forall k x y, 0 < k -> xor_shift x k = xor_shift y k -> x = y.
Proof.
  intros k x y K E. unfold xor_shift in E.
  assert (Z : N.lxor x y = N.shiftr (N.lxor x y) k).
  { rewrite N.shiftr_lxor. apply (f_equal (N.lxor (N.lxor (N.shiftr x k) y))) in E.
    assert (A1 : N.lxor (N.lxor (N.shiftr x k) y) (N.lxor x (N.shiftr x k)) = N.lxor x y).
    { rewrite (N.lxor_comm x (N.shiftr x k)), (N.lxor_comm (N.shiftr x k) y). rewrite N.lxor_assoc, <- (N.lxor_assoc (N.shiftr x k)), N.lxor_nilpotent, N.lxor_0_l.
      apply N.lxor_comm. }
    assert (A2 : N.lxor (N.lxor (N.shiftr x k) y) (N.lxor y (N.shiftr y k)) = N.lxor (N.shiftr x k) (N.shiftr y k)).
    { rewrite N.lxor_assoc, <- (N.lxor_assoc y), N.lxor_nilpotent, N.lxor_0_l. auto. }
    congruence. }
  apply N.lxor_eq. destruct (N.eq_dec (N.lxor x y) 0) as [|NZ]; auto. exfalso.
  assert (N.shiftr (N.lxor x y) k < N.lxor x y).
  { rewrite N.shiftr_div_pow2. apply N.div_lt; [lia|]. change 1 with (2 ^ 0). apply N.pow_lt_mono_r; lia. }
  lia.
Qed.

Lemma add_mod_inj : forall w x y z, x < w -> y < w -> (x + z) mod w = (y + z) mod w -> x = y.
Proof.
  intros w x y z Lx Ly E. rewrite <- (N.add_mod_idemp_r x z), <- (N.add_mod_idemp_r y z) in E by lia.
  pose proof (N.mod_lt z w ltac:(lia)) as Lz. revert E Lz. generalize (z mod w). clear z. intros z E Lz.
  assert (X : forall t, t < w -> (t + z) mod w = if t + z <? w then t + z else t + z - w).
  { intros t Lt. destruct (N.ltb_spec (t + z) w); [apply N.mod_small; auto|].
    replace (t + z) with ((t + z - w) + 1 * w) at 1 by lia. rewrite N.mod_add by lia. apply N.mod_small. lia. }
  rewrite !X in E by auto. destruct (N.ltb_spec (x + z) w), (N.ltb_spec (y + z) w); lia.
Qed.

(** Rotations of words of [n] bits. *)
Definition rotl (n x r : N) : N := N.lor (N.shiftl x r mod 2 ^ n) (N.shiftr x (n - r)).

Lemma rotl_sum : forall n x r, x < 2 ^ n -> r <= n -> rotl n x r = x / 2 ^ (n - r) + 2 ^ r * (x mod 2 ^ (n - r)).
Proof.
  intros n x r Lx Lr. unfold rotl. rewrite N.shiftl_mul_pow2, N.shiftr_div_pow2.
  assert (En : 2 ^ n = 2 ^ (n - r) * 2 ^ r) by (rewrite <- N.pow_add_r; f_equal; lia).
  rewrite En, N.mul_mod_distr_r by (apply N.pow_nonzero; lia). rewrite <- N.shiftl_mul_pow2, N.lor_comm.
  apply lor_shifted. apply N.div_lt_upper_bound; [apply N.pow_nonzero; lia|]. lia.
Qed.

Lemma rotl_lt : forall n x r, x < 2 ^ n -> r <= n -> rotl n x r < 2 ^ n.
Proof.
  intros n x r Lx Lr. rewrite rotl_sum by auto.
  assert (En : 2 ^ n = 2 ^ (n - r) * 2 ^ r) by (rewrite <- N.pow_add_r; f_equal; lia).
  assert (P : 0 < 2 ^ (n - r)) by (apply N.neq_0_lt_0, N.pow_nonzero; lia).
  pose proof (N.mod_lt x (2 ^ (n - r)) ltac:(lia)).
  assert (x / 2 ^ (n - r) < 2 ^ r) by (apply N.div_lt_upper_bound; [lia|rewrite <- En; auto]). nia.
Qed.

Lemma rotl_inj : forall n x y r, x < 2 ^ n -> y < 2 ^ n -> r <= n -> rotl n x r = rotl n y r -> x = y.
Proof.
  intros n x y r Lx Ly Lr E.
  assert (En : 2 ^ n = 2 ^ (n - r) * 2 ^ r) by (clear - Lr; rewrite <- N.pow_add_r; f_equal; lia).
  assert (P : 2 ^ (n - r) <> 0) by (apply N.pow_nonzero; discriminate).
  assert (Q : forall z, z < 2 ^ n -> z / 2 ^ (n - r) < 2 ^ r) by (intros z Lz; apply N.div_lt_upper_bound; [exact P|rewrite <- En; exact Lz]).
  rewrite (rotl_sum n x r Lx Lr), (rotl_sum n y r Ly Lr) in E.
  assert (E' : 2 ^ r * (x mod 2 ^ (n - r)) + x / 2 ^ (n - r) = 2 ^ r * (y mod 2 ^ (n - r)) + y / 2 ^ (n - r)) by (rewrite N.add_comm, E, N.add_comm; reflexivity).
  destruct (N.div_mod_unique (2 ^ r) _ _ _ _ (Q x Lx) (Q y Ly) E') as [E1 E2].
  pose proof (N.div_mod x (2 ^ (n - r)) P) as Dx. pose proof (N.div_mod y (2 ^ (n - r)) P) as Dy. rewrite E1, E2 in Dx. exact (eq_trans Dx (eq_sym Dy)).
Qed.

Lemma le_inj : forall a b, bytes a -> bytes b -> length a = length b -> little_endian a = little_endian b -> a = b.
Proof.
  induction a as [|x a IH]; intros [|y b] Ba Bb L E; try discriminate; auto.
  inversion Ba; inversion Bb; subst. cbn [little_endian length] in *.
  assert (x = y /\ little_endian a = little_endian b) as [-> E'] by lia. f_equal. apply IH; auto.
Qed.

(** ** One block of a key *)
Section OneBlock.
  Context {St Out : Type} (w : nat) (step : St -> list N -> St) (rest : St -> list N -> Out) (good : St -> Prop).
  Hypothesis w_pos : (0 < w)%nat.
  Hypothesis step_good : forall s b, good s -> bytes b -> length b = w -> good (step s b).
  Hypothesis step_inj_s : forall s s' b, good s -> good s' -> bytes b -> length b = w -> step s b = step s' b -> s = s'.
  Hypothesis rest_inj_s : forall s s' t, good s -> good s' -> bytes t -> (length t < w)%nat -> rest s t = rest s' t -> s = s'.

  Definition digest (s : St) (bs : list N) : Out := let '(s', t) := eat w step s bs in rest s' t.

  Lemma digest_inj_s : forall n s s' bs, (length bs <= n)%nat -> good s -> good s' -> bytes bs -> digest s bs = digest s' bs -> s = s'.
  Proof.
    unfold digest. induction n as [|n IH]; intros s s' bs L G G' B E.
    - rewrite !eat_short in E by lia. eapply rest_inj_s; eauto; lia.
    - destruct (Nat.lt_ge_cases (length bs) w) as [X|X].
      + rewrite !eat_short in E by auto. eapply rest_inj_s; eauto.
      + pose proof (firstn_skipn w bs) as Eb. assert (Lx : length (firstn w bs) = w) by (rewrite firstn_length; lia).
        assert (Ly : (length (skipn w bs) <= n)%nat) by (rewrite skipn_length; lia).
        revert Eb Lx Ly. generalize (firstn w bs) (skipn w bs). intros x y <- Lx Ly. apply bytes_app in B. destruct B as [Bx By].
        rewrite !eat_block in E by auto. apply IH in E; auto. apply (step_inj_s s s' x); auto.
  Qed.

  Hypothesis step_inj_b : forall s b b', good s -> bytes b -> bytes b' -> length b = w -> length b' = w -> step s b = step s b' -> b = b'.
  Hypothesis rest_inj_t : forall s t t', good s -> bytes t -> bytes t' -> (length t < w)%nat -> length t' = length t -> rest s t = rest s t' -> t = t'.

  Lemma digest_block : forall n s pre x y suf, length pre = (w * n)%nat -> good s -> bytes pre -> bytes x -> bytes y -> bytes suf ->
    length x = length y -> (length x = w \/ (length x < w)%nat /\ suf = []) ->
    digest s (pre ++ x ++ suf) = digest s (pre ++ y ++ suf) -> x = y.
  Proof.
    induction n as [|n IH]; intros s pre x y suf L G Bp Bx By Bs Lxy C E.
    - rewrite Nat.mul_0_r in L. destruct pre; [|discriminate]. cbn [app] in E. destruct C as [Lx|[Lx ->]].
      + unfold digest in E. rewrite !eat_block in E by lia.
        change (digest (step s x) suf = digest (step s y) suf) in E.
        apply (digest_inj_s (length suf)) in E; auto; try (apply step_good; auto; lia). apply (step_inj_b s x y); auto; lia.
      + unfold digest in E. rewrite !app_nil_r, !eat_short in E by lia. apply (rest_inj_t s x y); auto.
    - pose proof (firstn_skipn w pre) as Eb. assert (La : length (firstn w pre) = w) by (rewrite firstn_length; lia).
      assert (Ly : length (skipn w pre) = (w * n)%nat) by (rewrite skipn_length; lia).
      revert Eb La Ly. generalize (firstn w pre) (skipn w pre). intros a p <- La Lp. apply bytes_app in Bp. destruct Bp as [Ba Bp].
      unfold digest in E. rewrite <- !app_assoc in E.
      rewrite (eat_block w step w_pos s a (p ++ x ++ suf)), (eat_block w step w_pos s a (p ++ y ++ suf)) in E by auto.
      apply (IH (step s a) p x y suf); auto.
  Qed.
End OneBlock.

Lemma differ_split : forall w k1 k2, (0 < w)%nat -> differ_within w k1 k2 ->
  exists n pre x y suf, k1 = pre ++ x ++ suf /\ k2 = pre ++ y ++ suf /\ length pre = (w * n)%nat /\ length x = length y /\ x <> y /\
    (length x = w \/ (length x < w)%nat /\ suf = []).
Proof.
  intros w k1 k2 W (L & Ne & i & H).
  assert (Hp : firstn (w * i) k1 = firstn (w * i) k2).
  { apply nth_ext with (d := 0) (d' := 0); [rewrite !firstn_length; lia|]. intros j J. rewrite firstn_length in J.
    assert (j < w * i)%nat by lia.
    assert (N1 : forall (k : list N), nth j (firstn (w * i) k) 0 = nth j k 0).
    { intros k. rewrite <- (firstn_skipn (w * i) k) at 2. destruct (Nat.lt_ge_cases j (length (firstn (w * i) k))) as [A|A].
      - rewrite app_nth1 by auto. auto.
      - rewrite nth_overflow by auto. rewrite firstn_length in A. rewrite nth_overflow; auto. rewrite firstn_skipn. lia. }
    rewrite !N1. apply H. intros E. assert (j / w < i)%nat by (apply Nat.div_lt_upper_bound; lia). lia. }
  assert (Hs : skipn w (skipn (w * i) k1) = skipn w (skipn (w * i) k2)).
  { apply nth_ext with (d := 0) (d' := 0); [rewrite !skipn_length; lia|]. intros j J.
    assert (N1 : forall (k : list N), nth j (skipn w (skipn (w * i) k)) 0 = nth (w * i + w + j) k 0).
    { intros k. rewrite <- (firstn_skipn (w * i) k) at 2. rewrite <- (firstn_skipn w (skipn (w * i) k)) at 2.
      rewrite !skipn_length in J.
      destruct (Nat.le_gt_cases (w * i + w) (length k)) as [A|A].
      - rewrite !app_nth2; rewrite ?firstn_length, ?skipn_length; try lia. f_equal. lia.
      - rewrite nth_overflow by (rewrite !skipn_length; lia). rewrite nth_overflow; auto. rewrite !firstn_skipn. lia. }
    rewrite !N1. apply H. replace (w * i + w + j)%nat with (j + (i + 1) * w)%nat by lia. rewrite Nat.div_add by lia. lia. }
  destruct (Nat.le_gt_cases (w * i) (length k1)) as [A|A].
  2: { exfalso. apply Ne. rewrite <- (firstn_skipn (w * i) k1), <- (firstn_skipn (w * i) k2), Hp. f_equal. rewrite !skipn_all2 by lia. auto. }
  exists i, (firstn (w * i) k1), (firstn w (skipn (w * i) k1)), (firstn w (skipn (w * i) k2)), (skipn w (skipn (w * i) k1)).
  split; [rewrite !firstn_skipn; auto|]. split; [rewrite Hp, Hs, !firstn_skipn; auto|].
  split; [rewrite firstn_length; lia|]. split; [rewrite !firstn_length, !skipn_length; lia|].
  split.
  - intros E. apply Ne. rewrite <- (firstn_skipn (w * i) k1), <- (firstn_skipn (w * i) k2), Hp. f_equal.
    rewrite <- (firstn_skipn w (skipn (w * i) k1)), <- (firstn_skipn w (skipn (w * i) k2)), E, Hs. auto.
  - rewrite firstn_length, skipn_length. destruct (Nat.le_gt_cases w (length k1 - w * i)); [left; lia|right].
    split; [lia|]. apply skipn_all2. rewrite skipn_length. lia.
Qed.

(** The last two lemmas about blocks in one. *)
Lemma digest_differ : forall St Out w (step : St -> list N -> St) (rest : St -> list N -> Out) (good : St -> Prop),
  (0 < w)%nat ->
  (forall s b, good s -> bytes b -> length b = w -> good (step s b)) ->
  (forall s s' b, good s -> good s' -> bytes b -> length b = w -> step s b = step s' b -> s = s') ->
  (forall s b b', good s -> bytes b -> bytes b' -> length b = w -> length b' = w -> step s b = step s b' -> b = b') ->
  (forall s s' t, good s -> good s' -> bytes t -> (length t < w)%nat -> rest s t = rest s' t -> s = s') ->
  (forall s t t', good s -> bytes t -> bytes t' -> (length t < w)%nat -> length t' = length t -> rest s t = rest s t' -> t = t') ->
  forall s k1 k2, good s -> bytes k1 -> bytes k2 -> differ_within w k1 k2 -> digest w step rest s k1 <> digest w step rest s k2.
Proof.
  intros St Out w step rest good W H1 H2 H3 H4 H5 s k1 k2 G B1 B2 D E.
  destruct (differ_split w k1 k2 W D) as (n & pre & x & y & suf & -> & -> & Lp & Lxy & Ne & C).
  apply bytes_app in B1. destruct B1 as [Bp B1]. apply bytes_app in B1. destruct B1 as [Bx Bs]. apply bytes_app in B2. destruct B2 as [_ B2]. apply bytes_app in B2. destruct B2 as [By _].
  apply Ne. apply (digest_block w step rest good) with (n := n) (s := s) (pre := pre) (suf := suf); auto.
Qed.

(** ** The words of the functions *)
Notation w32 x := (x < 2 ^ 32).
Notation w64 x := (x < 2 ^ 64).

Lemma mul32_lt : forall a b, w32 (mul32 a b). Proof. intros. apply N.mod_lt. discriminate. Qed.
Lemma add32_lt : forall a b, w32 (add32 a b). Proof. intros. apply N.mod_lt. discriminate. Qed.
Lemma mul64_lt : forall a b, w64 (mul64 a b). Proof. intros. apply N.mod_lt. discriminate. Qed.
Lemma add64_lt : forall a b, w64 (add64 a b). Proof. intros. apply N.mod_lt. discriminate. Qed.
Lemma rotl32_lt : forall a r, w32 a -> r <= 32 -> w32 (rotl32 a r). Proof. intros. apply (rotl_lt 32); auto. Qed.
Lemma rotl64_lt : forall a r, w64 a -> r <= 64 -> w64 (rotl64 a r). Proof. intros. apply (rotl_lt 64); auto. Qed.
Lemma uint32_lt : forall z, w32 (uint32 z).
Proof. intros. unfold uint32. pose proof (Z.mod_pos_bound z (2 ^ 32) ltac:(lia)). lia. Qed.
Lemma uint64_lt : forall z, w64 (uint64 z).
Proof. intros. unfold uint64. pose proof (Z.mod_pos_bound z (2 ^ 64) ltac:(lia)). lia. Qed.
Lemma le32 : forall b, bytes b -> (length b <= 4)%nat -> w32 (little_endian b).
Proof.
  intros b B L. pose proof (le_lt b B). rewrite pow256 in H.
  assert (2 ^ (8 * N.of_nat (length b)) <= 2 ^ 32) by (apply N.pow_le_mono_r; lia). lia.
Qed.
Lemma le64 : forall b, bytes b -> (length b <= 8)%nat -> w64 (little_endian b).
Proof.
  intros b B L. pose proof (le_lt b B). rewrite pow256 in H.
  assert (2 ^ (8 * N.of_nat (length b)) <= 2 ^ 64) by (apply N.pow_le_mono_r; lia). lia.
Qed.
Lemma scramble32_lt : forall k a r b, w32 (scramble32 k a r b). Proof. intros. apply mul32_lt. Qed.
Lemma scramble64_lt : forall k a r b, w64 (scramble64 k a r b). Proof. intros. apply mul64_lt. Qed.
Lemma stir32_lt : forall h r g c, w32 (stir32 h r g c). Proof. intros. apply add32_lt. Qed.
Lemma stir64_lt : forall h r g c, w64 (stir64 h r g c). Proof. intros. apply add64_lt. Qed.
Lemma shiftr_lt : forall n x k, x < 2 ^ n -> N.shiftr x k < 2 ^ n.
Proof. intros n x k L. pose proof (shiftr_le_self x k). lia. Qed.
Lemma mix2_lt : forall h k, w32 (mix2 h k).
Proof. intros. unfold mix2. cbv zeta. apply lxor_lt; apply mul32_lt. Qed.
Lemma fmix32_lt : forall h, w32 (fmix32 h). Proof. intros. unfold fmix32. apply xor_shift_lt, mul32_lt. Qed.
Lemma fmix64_lt : forall h, w64 (fmix64 h). Proof. intros. unfold fmix64. apply xor_shift_lt, mul64_lt. Qed.

Global Hint Resolve mul32_lt add32_lt mul64_lt add64_lt rotl32_lt rotl64_lt uint32_lt uint64_lt le32 le64 scramble32_lt scramble64_lt
  stir32_lt stir64_lt shiftr_lt mix2_lt fmix32_lt fmix64_lt lxor_lt xor_shift_lt : word.

Global Hint Extern 1 (_ <= _)%nat => lia : word.
Global Hint Extern 1 (_ <= _)%N => lia : word.

Definition odd32 (c : N) : Prop := exists c', (c * c') mod 2 ^ 32 = 1.
Definition odd64 (c : N) : Prop := exists c', (c * c') mod 2 ^ 64 = 1.
Lemma odd_m2 : odd32 m2. Proof. exists 3852147133. reflexivity. Qed.
Lemma odd_5 : odd32 5. Proof. exists 3435973837. reflexivity. Qed.
Lemma odd_f1 : odd32 2246822507. Proof. exists 2781581891. reflexivity. Qed.
Lemma odd_f2 : odd32 3266489909. Proof. exists 2127672349. reflexivity. Qed.
Lemma odd_c1 : odd32 c32_1. Proof. exists 3739302833. reflexivity. Qed.
Lemma odd_c2 : odd32 c32_2. Proof. exists 1458385051. reflexivity. Qed.
Lemma odd_1 : odd32 c1_128. Proof. exists 2311672851. reflexivity. Qed.
Lemma odd_2 : odd32 c2_128. Proof. exists 3742568121. reflexivity. Qed.
Lemma odd_3 : odd32 c3_128. Proof. exists 1954046701. reflexivity. Qed.
Lemma odd_4 : odd32 c4_128. Proof. exists 1490438811. reflexivity. Qed.
Lemma odd_mm : odd64 mm. Proof. exists 6879827495036328381. reflexivity. Qed.
Lemma odd64_5 : odd64 5. Proof. exists 14757395258967641293. reflexivity. Qed.
Lemma odd64_f1 : odd64 18397679294719823053. Proof. exists 5725274745694666757. reflexivity. Qed.
Lemma odd64_f2 : odd64 14181476777654086739. Proof. exists 11291846944257947611. reflexivity. Qed.
Lemma odd64_1 : odd64 c1_64. Proof. exists 12214898983567248765. reflexivity. Qed.
Lemma odd64_2 : odd64 c2_64. Proof. exists 12114143059468233855. reflexivity. Qed.
Global Hint Resolve odd_m2 odd_5 odd_f1 odd_f2 odd_c1 odd_c2 odd_1 odd_2 odd_3 odd_4 odd_mm odd64_5 odd64_f1 odd64_f2 odd64_1 odd64_2 : word.

Lemma mul32_inj : forall c x y, odd32 c -> w32 x -> w32 y -> mul32 x c = mul32 y c -> x = y.
Proof. intros c x y [c' I] Lx Ly E. eapply mul_inj; eauto. Qed.
Lemma mul64_inj : forall c x y, odd64 c -> w64 x -> w64 y -> mul64 x c = mul64 y c -> x = y.
Proof. intros c x y [c' I] Lx Ly E. eapply mul_inj; eauto. Qed.
Lemma add32_inj : forall z x y, w32 x -> w32 y -> add32 x z = add32 y z -> x = y.
Proof. intros z x y Lx Ly E. eapply add_mod_inj; eauto. Qed.
Lemma add64_inj : forall z x y, w64 x -> w64 y -> add64 x z = add64 y z -> x = y.
Proof. intros z x y Lx Ly E. eapply add_mod_inj; eauto. Qed.
Lemma rotl32_inj : forall r x y, r <= 32 -> w32 x -> w32 y -> rotl32 x r = rotl32 y r -> x = y.
Proof. intros r x y R Lx Ly E. apply (rotl_inj 32 x y r); auto. Qed.
Lemma rotl64_inj : forall r x y, r <= 64 -> w64 x -> w64 y -> rotl64 x r = rotl64 y r -> x = y.
Proof. intros r x y R Lx Ly E. apply (rotl_inj 64 x y r); auto. Qed.

Ltac word := auto with word; try lia.

Lemma scramble32_inj : forall a r b x y, odd32 a -> odd32 b -> r <= 32 -> w32 x -> w32 y -> scramble32 x a r b = scramble32 y a r b -> x = y.
Proof.
  intros a r b x y A B R Lx Ly E. unfold scramble32 in E. apply mul32_inj in E; word. apply rotl32_inj in E; word. apply mul32_inj in E; word.
Qed.
Lemma scramble64_inj : forall a r b x y, odd64 a -> odd64 b -> r <= 64 -> w64 x -> w64 y -> scramble64 x a r b = scramble64 y a r b -> x = y.
Proof.
  intros a r b x y A B R Lx Ly E. unfold scramble64 in E. apply mul64_inj in E; word. apply rotl64_inj in E; word. apply mul64_inj in E; word.
Qed.
Lemma stir32_inj : forall r g c x y, r <= 32 -> w32 x -> w32 y -> stir32 x r g c = stir32 y r g c -> x = y.
Proof.
  intros r g c x y R Lx Ly E. unfold stir32 in E. apply add32_inj in E; word. apply mul32_inj in E; word. apply add32_inj in E; word. apply rotl32_inj in E; word.
Qed.
Lemma stir64_inj : forall r g c x y, r <= 64 -> w64 x -> w64 y -> stir64 x r g c = stir64 y r g c -> x = y.
Proof.
  intros r g c x y R Lx Ly E. unfold stir64 in E. apply add64_inj in E; word. apply mul64_inj in E; word. apply add64_inj in E; word. apply rotl64_inj in E; word.
Qed.
Lemma fmix32_inj : forall x y, w32 x -> w32 y -> fmix32 x = fmix32 y -> x = y.
Proof.
  intros x y Lx Ly E. unfold fmix32 in E. apply xor_shift_inj in E; word. apply mul32_inj in E; word. apply xor_shift_inj in E; word.
  apply mul32_inj in E; word. apply xor_shift_inj in E; word.
Qed.
Lemma fmix64_inj : forall x y, w64 x -> w64 y -> fmix64 x = fmix64 y -> x = y.
Proof.
  intros x y Lx Ly E. unfold fmix64 in E. apply xor_shift_inj in E; word. apply mul64_inj in E; word. apply xor_shift_inj in E; word.
  apply mul64_inj in E; word. apply xor_shift_inj in E; word.
Qed.

Lemma mix2_inj_h : forall k x y, w32 x -> w32 y -> mix2 x k = mix2 y k -> x = y.
Proof. intros k x y Lx Ly E. unfold mix2 in E. cbv zeta in E. apply lxor_inj_l in E. apply mul32_inj in E; word. Qed.
Lemma mix2_inj_k : forall h x y, w32 x -> w32 y -> mix2 h x = mix2 h y -> x = y.
Proof.
  intros h x y Lx Ly E. unfold mix2 in E. cbv zeta in E. apply lxor_inj_r in E. apply mul32_inj in E; word.
  apply xor_shift_inj in E; word. apply mul32_inj in E; word.
Qed.
Lemma final2_inj : forall x y, w32 x -> w32 y -> final2 x = final2 y -> x = y.
Proof. intros x y Lx Ly E. unfold final2 in E. apply xor_shift_inj in E; word. apply mul32_inj in E; word. apply xor_shift_inj in E; word. Qed.

Lemma rest2_lt : forall h t, w32 h -> w32 (rest2 h t).
Proof. intros h [|b t] L; cbn [rest2]; word. Qed.
Lemma rest2_inj_h : forall t x y, bytes t -> (length t <= 4)%nat -> w32 x -> w32 y -> rest2 x t = rest2 y t -> x = y.
Proof.
  intros [|b t] x y B L Lx Ly E; cbn [rest2] in E; auto. pose proof (le32 _ B L).
  apply mul32_inj in E; word. apply lxor_inj_l in E. auto.
Qed.
Lemma rest2_inj_t : forall h t t', bytes t -> bytes t' -> (length t <= 4)%nat -> length t' = length t -> w32 h -> rest2 h t = rest2 h t' -> t = t'.
Proof.
  intros h t t' B B' L L' Lh E. assert (Lt : (length t' <= 4)%nat) by lia. pose proof (le32 _ B L). pose proof (le32 _ B' Lt).
  destruct t as [|b t], t' as [|b' t']; try discriminate; auto. cbn [rest2] in E.
  apply mul32_inj in E; word. apply lxor_inj_r in E. apply le_inj; auto.
Qed.
Global Hint Resolve rest2_lt : word.

(** ** The functions of MurmurHash2.cpp *)
Lemma block2_good : forall s b, w32 s -> bytes b -> length b = 4%nat -> w32 (block2 s b).
Proof. intros. unfold block2. word. Qed.
Lemma block2_inj_s : forall s s' b, w32 s -> w32 s' -> bytes b -> length b = 4%nat -> block2 s b = block2 s' b -> s = s'.
Proof. intros s s' b G G' B L E. unfold block2 in E. apply mix2_inj_h in E; word. Qed.
Lemma block2_inj_b : forall s b b', w32 s -> bytes b -> bytes b' -> length b = 4%nat -> length b' = 4%nat -> block2 s b = block2 s b' -> b = b'.
Proof. intros s b b' G B B' L L' E. unfold block2 in E. apply mix2_inj_k in E; [|word|word]. apply le_inj; auto. lia. Qed.

Lemma digest2_seed : forall len bs s s', bytes bs -> w32 s -> w32 s' -> digest2 s len bs = digest2 s' len bs -> s = s'.
Proof.
  intros len bs s s' B Ls Ls' E.
  assert (N.lxor s (uint32 len) = N.lxor s' (uint32 len)) as X.
  { apply (digest_inj_s 4 block2 (fun h t => final2 (rest2 h t)) (fun h => w32 h)) with (n := length bs) (bs := bs); word.
    - apply block2_good. - apply block2_inj_s.
    - intros a a' t Ga Ga' Bt Lt Er. apply final2_inj in Er; word. apply rest2_inj_h in Er; word. }
  apply lxor_inj_l in X. auto.
Qed.
Lemma digest2_block : forall len k1 k2 s, bytes k1 -> bytes k2 -> w32 s -> differ_within 4 k1 k2 -> digest2 s len k1 <> digest2 s len k2.
Proof.
  intros len k1 k2 s B1 B2 Ls D.
  apply (digest_differ N N 4 block2 (fun h t => final2 (rest2 h t)) (fun h => w32 h)); word.
  - apply block2_good. - apply block2_inj_s. - apply block2_inj_b.
  - intros a a' t Ga Ga' Bt Lt Er. apply final2_inj in Er; word. apply rest2_inj_h in Er; word.
  - intros a t t' Ga Bt Bt' Lt Lt' Er. apply final2_inj in Er; word. apply rest2_inj_t in Er; word.
Qed.

Lemma digest2a_seed : forall len bs s s', bytes bs -> w32 s -> w32 s' -> digest2a s len bs = digest2a s' len bs -> s = s'.
Proof.
  intros len bs s s' B Ls Ls' E.
  apply (digest_inj_s 4 block2 (fun h t => final2 (mix2 (mix2 h (little_endian t)) (uint32 len))) (fun h => w32 h)) with (n := length bs) (bs := bs); word.
  - apply block2_good. - apply block2_inj_s.
  - intros a a' t Ga Ga' Bt Lt Er. apply final2_inj in Er; word. apply mix2_inj_h in Er; word. apply mix2_inj_h in Er; word.
Qed.
Lemma digest2a_block : forall len k1 k2 s, bytes k1 -> bytes k2 -> w32 s -> differ_within 4 k1 k2 -> digest2a s len k1 <> digest2a s len k2.
Proof.
  intros len k1 k2 s B1 B2 Ls D.
  apply (digest_differ N N 4 block2 (fun h t => final2 (mix2 (mix2 h (little_endian t)) (uint32 len))) (fun h => w32 h)); word.
  - apply block2_good. - apply block2_inj_s. - apply block2_inj_b.
  - intros a a' t Ga Ga' Bt Lt Er. apply final2_inj in Er; word. apply mix2_inj_h in Er; word. apply mix2_inj_h in Er; word.
  - intros a t t' Ga Bt Bt' Lt Lt' Er. apply final2_inj in Er; word. apply mix2_inj_h in Er; word.
    assert ((length t' <= 4)%nat) by lia. assert ((length t <= 4)%nat) by lia. apply mix2_inj_k in Er; word. apply le_inj; auto.
Qed.

Lemma bytes_firstn : forall n b, bytes b -> bytes (firstn n b).
Proof. intros n b B. rewrite <- (firstn_skipn n b) in B. apply bytes_app in B. apply B. Qed.
Lemma bytes_skipn : forall n b, bytes b -> bytes (skipn n b).
Proof. intros n b B. rewrite <- (firstn_skipn n b) in B. apply bytes_app in B. apply B. Qed.

Lemma skipn_twice : forall (A : Type) (l : list A) a b, skipn a (skipn b l) = skipn (b + a) l.
Proof.
  induction l as [|x l IH]; intros a b; [rewrite !skipn_nil; auto|]. destruct b as [|b]; [reflexivity|]. cbn [skipn plus]. apply IH.
Qed.

Lemma le_part : forall n a b b', bytes b -> bytes b' -> length b = length b' ->
  little_endian (firstn n (skipn a b)) = little_endian (firstn n (skipn a b')) -> firstn n (skipn a b) = firstn n (skipn a b').
Proof.
  intros n a b b' B B' L E. apply le_inj; auto; try apply bytes_firstn, bytes_skipn; auto. rewrite !firstn_length, !skipn_length. lia.
Qed.

(** *** MurmurHash64B *)
Definition good2 (h : N * N) : Prop := w32 (fst h) /\ w32 (snd h).

Lemma block64b_good : forall s b, good2 s -> bytes b -> length b = 8%nat -> good2 (block64b s b).
Proof. intros s b _ _ _. unfold block64b, good2. cbn [fst snd]. split; word. Qed.
Lemma block64b_inj_s : forall s s' b, good2 s -> good2 s' -> bytes b -> length b = 8%nat -> block64b s b = block64b s' b -> s = s'.
Proof.
  intros [a c] [a' c'] b [G1 G2] [G1' G2'] B L E. unfold block64b in E. cbn [fst snd] in *. injection E as E1 E2.
  apply mix2_inj_h in E1; auto. apply mix2_inj_h in E2; auto. congruence.
Qed.
Lemma block64b_inj_b : forall s b b', good2 s -> bytes b -> bytes b' -> length b = 8%nat -> length b' = 8%nat -> block64b s b = block64b s b' -> b = b'.
Proof.
  intros [a c] b b' [G1 G2] B B' L L' E. unfold block64b in E. cbn [fst snd] in *. injection E as E1 E2.
  assert (F : forall x, bytes x -> length x = 8%nat -> w32 (little_endian (firstn 4 x)) /\ w32 (little_endian (skipn 4 x))).
  { intros x Bx Lx. split; apply le32; auto using bytes_firstn, bytes_skipn; [rewrite firstn_length|rewrite skipn_length]; lia. }
  destruct (F b B L). destruct (F b' B' L').
  apply mix2_inj_k in E1; auto. apply mix2_inj_k in E2; auto.
  rewrite <- (firstn_skipn 4 b), <- (firstn_skipn 4 b'). f_equal; apply le_inj; auto using bytes_firstn, bytes_skipn;
    [rewrite !firstn_length|rewrite !skipn_length]; lia.
Qed.

Lemma join32_inj : forall a b a' b', w32 a -> w32 b -> w32 a' -> w32 b' -> N.lor (shl64 a 32) b = N.lor (shl64 a' 32) b' -> a = a' /\ b = b'.
Proof.
  intros a b a' b' A B A' B' E. rewrite !shl64_small in E by (auto; lia). rewrite !(N.lor_comm (N.shiftl _ _)), !lor_shifted in E by auto.
  rewrite !(N.add_comm _ (2 ^ 32 * _)) in E. apply N.div_mod_unique in E; auto.
Qed.
Lemma final64b_inj : forall a b a' b', w32 a -> w32 b -> w32 a' -> w32 b' -> final64b a b = final64b a' b' -> a = a' /\ b = b'.
Proof.
  intros a b a' b' A B A' B' E. unfold final64b in E. cbv zeta in E.
  set (p1 := mul32 (N.lxor a (N.shiftr b 18)) m2) in *. set (p1' := mul32 (N.lxor a' (N.shiftr b' 18)) m2) in *.
  assert (w32 p1 /\ w32 p1') as [P1 P1'] by (split; apply mul32_lt).
  set (p2 := mul32 (N.lxor b (N.shiftr p1 22)) m2) in *. set (p2' := mul32 (N.lxor b' (N.shiftr p1' 22)) m2) in *.
  assert (w32 p2 /\ w32 p2') as [P2 P2'] by (split; apply mul32_lt).
  set (p3 := mul32 (N.lxor p1 (N.shiftr p2 17)) m2) in *. set (p3' := mul32 (N.lxor p1' (N.shiftr p2' 17)) m2) in *.
  assert (w32 p3 /\ w32 p3') as [P3 P3'] by (split; apply mul32_lt).
  apply join32_inj in E; word. destruct E as [E3 E4]. rewrite E3 in E4.
  apply mul32_inj in E4; word. apply lxor_inj_l in E4.
  unfold p3, p3' in E3. rewrite E4 in E3. apply mul32_inj in E3; word. apply lxor_inj_l in E3.
  unfold p2, p2' in E4. rewrite E3 in E4. apply mul32_inj in E4; word. apply lxor_inj_l in E4.
  unfold p1, p1' in E3. rewrite E4 in E3. apply mul32_inj in E3; word. apply lxor_inj_l in E3. auto.
Qed.

Definition end64b (h : N * N) (t : list N) : N := let '(h1, h2) := rest64b h t in final64b h1 h2.
Lemma end64b_inj_s : forall s s' t, good2 s -> good2 s' -> bytes t -> (length t < 8)%nat -> end64b s t = end64b s' t -> s = s'.
Proof.
  intros [a c] [a' c'] t [G1 G2] [G1' G2'] B L E. unfold end64b, rest64b in E. cbn [fst snd] in *.
  destruct (Nat.leb_spec 4 (length t)).
  - apply final64b_inj in E; word. destruct E as [E1 E2]. apply mix2_inj_h in E1; word.
    apply rest2_inj_h in E2; auto using bytes_skipn; [congruence|rewrite skipn_length; lia].
  - apply final64b_inj in E; word. destruct E as [E1 E2]. apply rest2_inj_h in E2; auto; [congruence|lia].
Qed.
Lemma end64b_inj_t : forall s t t', good2 s -> bytes t -> bytes t' -> (length t < 8)%nat -> length t' = length t -> end64b s t = end64b s t' -> t = t'.
Proof.
  intros [a c] t t' [G1 G2] B B' L L' E. unfold end64b, rest64b in E. cbn [fst snd] in *. rewrite L' in E.
  destruct (Nat.leb_spec 4 (length t)).
  - apply final64b_inj in E; word. destruct E as [E1 E2].
    apply mix2_inj_k in E1; try (apply le32; [apply bytes_firstn; auto|rewrite firstn_length; lia]).
    apply rest2_inj_t in E2; auto using bytes_skipn; try (rewrite !skipn_length; lia).
    rewrite <- (firstn_skipn 4 t), <- (firstn_skipn 4 t'), E2. f_equal. apply le_inj; auto using bytes_firstn. rewrite !firstn_length. lia.
  - apply final64b_inj in E; word. destruct E as [E1 E2]. apply rest2_inj_t in E2; auto; lia.
Qed.

Lemma digest64b_is : forall seed len bs, digest64b seed len bs = digest 8 block64b end64b (N.lxor (seed mod 2 ^ 32) (uint32 len), N.shiftr seed 32) bs.
Proof. reflexivity. Qed.
Lemma good64b : forall seed len, w64 seed -> good2 (N.lxor (seed mod 2 ^ 32) (uint32 len), N.shiftr seed 32).
Proof.
  intros seed len L. split; cbn [fst snd]; [apply lxor_lt; word; apply N.mod_lt; discriminate|].
  rewrite N.shiftr_div_pow2. apply N.div_lt_upper_bound; [discriminate|]. exact L.
Qed.
Lemma digest64b_seed : forall len bs s s', bytes bs -> w64 s -> w64 s' -> digest64b s len bs = digest64b s' len bs -> s = s'.
Proof.
  intros len bs s s' B Ls Ls' E. rewrite !digest64b_is in E.
  apply (digest_inj_s 8 block64b end64b good2) with (n := length bs) in E;
    auto using good64b, block64b_good; try lia; [|apply block64b_inj_s|apply end64b_inj_s].
  pose proof (f_equal fst E) as E1. pose proof (f_equal snd E) as E2. cbn [fst snd] in E1, E2. apply lxor_inj_l in E1. rewrite !N.shiftr_div_pow2 in E2.
  rewrite (N.div_mod s (2 ^ 32)) by discriminate. rewrite E1, E2. symmetry. apply N.div_mod. discriminate.
Qed.
Lemma digest64b_block : forall len k1 k2 s, bytes k1 -> bytes k2 -> w64 s -> differ_within 8 k1 k2 -> digest64b s len k1 <> digest64b s len k2.
Proof.
  intros len k1 k2 s B1 B2 Ls D. rewrite !digest64b_is. apply digest_differ with (good := good2); auto using good64b, block64b_good; try lia.
  - apply block64b_inj_s. - apply block64b_inj_b. - apply end64b_inj_s. - apply end64b_inj_t.
Qed.

(** *** MurmurHash64A *)
Definition block64a (h : N) (b : list N) : N := mix_block h (little_endian b).
Definition rest64a (h : N) (t : list N) : N := match t with [] => h | _ => wmul (N.lxor h (little_endian t)) mm end.

Lemma mix_bytes_is : forall n h bs, (length bs <= n)%nat -> mix_bytes h bs = digest 8 block64a rest64a h bs.
Proof.
  unfold digest. induction n as [|n IH]; intros h bs L.
  - destruct bs; [|cbn in L; lia]. reflexivity.
  - destruct bs as [|b0 [|b1 [|b2 [|b3 [|b4 [|b5 [|b6 [|b7 bs]]]]]]]];
      try (rewrite eat_short by (cbn [length]; lia); reflexivity).
    cbn [mix_bytes]. rewrite IH by (cbn [length] in L; lia).
    change (b0 :: b1 :: b2 :: b3 :: b4 :: b5 :: b6 :: b7 :: bs) with ([b0; b1; b2; b3; b4; b5; b6; b7] ++ bs).
    rewrite eat_block by (auto; lia). reflexivity.
Qed.

Lemma wmul_inj : forall x y, w64 x -> w64 y -> wmul x mm = wmul y mm -> x = y.
Proof. intros x y. apply mul64_inj. apply odd_mm. Qed.
Lemma wmul_lt : forall x y, w64 (wmul x y). Proof. apply mul64_lt. Qed.
Global Hint Resolve wmul_lt : word.

Definition final64a (h : N) : N := xor_shift (wmul (xor_shift h 47) mm) 47.
Lemma final64a_inj : forall x y, w64 x -> w64 y -> final64a x = final64a y -> x = y.
Proof. intros x y Lx Ly E. unfold final64a in E. apply xor_shift_inj in E; word. apply wmul_inj in E; word. apply xor_shift_inj in E; word. Qed.
Lemma murmur64a_is : forall bs seed,
  murmur64a bs seed = digest 8 block64a (fun h t => final64a (rest64a h t)) (N.lxor seed (wmul (N.of_nat (length bs)) mm)) bs.
Proof.
  intros bs seed. unfold murmur64a, murmur_of. cbv zeta. rewrite (mix_bytes_is (length bs)) by auto. unfold digest.
  destruct (eat 8 block64a _ bs). reflexivity.
Qed.
Lemma rest64a_lt : forall h t, w64 h -> w64 (rest64a h t).
Proof. intros h [|b t] L; cbn [rest64a]; word. Qed.
Lemma rest64a_inj_h : forall t x y, bytes t -> (length t <= 8)%nat -> w64 x -> w64 y -> rest64a x t = rest64a y t -> x = y.
Proof.
  intros [|b t] x y B L Lx Ly E; cbn [rest64a] in E; auto. pose proof (le64 _ B L).
  apply wmul_inj in E; word. apply lxor_inj_l in E. auto.
Qed.
Lemma rest64a_inj_t : forall h t t', bytes t -> bytes t' -> (length t <= 8)%nat -> length t' = length t -> w64 h -> rest64a h t = rest64a h t' -> t = t'.
Proof.
  intros h t t' B B' L L' Lh E. assert (Lt : (length t' <= 8)%nat) by lia. pose proof (le64 _ B L). pose proof (le64 _ B' Lt).
  destruct t as [|b t], t' as [|b' t']; try discriminate; auto. cbn [rest64a] in E.
  apply wmul_inj in E; word. apply lxor_inj_r in E. apply le_inj; auto.
Qed.
Global Hint Resolve rest64a_lt : word.
Lemma block64a_good : forall s b, w64 s -> bytes b -> length b = 8%nat -> w64 (block64a s b).
Proof. intros. unfold block64a, mix_block. cbv zeta. word. Qed.
Lemma block64a_inj_s : forall s s' b, w64 s -> w64 s' -> bytes b -> length b = 8%nat -> block64a s b = block64a s' b -> s = s'.
Proof.
  intros s s' b G G' B L E. unfold block64a, mix_block in E. cbv zeta in E. apply wmul_inj in E; word. apply lxor_inj_l in E. auto.
Qed.
Lemma block64a_inj_b : forall s b b', w64 s -> bytes b -> bytes b' -> length b = 8%nat -> length b' = 8%nat -> block64a s b = block64a s b' -> b = b'.
Proof.
  intros s b b' G B B' L L' E. unfold block64a, mix_block in E. cbv zeta in E. apply wmul_inj in E; word. apply lxor_inj_r in E.
  apply wmul_inj in E; [|word|word]. change (xor_shift (wmul (little_endian b) mm) mr = xor_shift (wmul (little_endian b') mm) mr) in E.
  apply xor_shift_inj in E; [|reflexivity]. apply wmul_inj in E; try (apply le64; auto; lia). apply le_inj; auto; lia.
Qed.

Lemma murmur64a_seed : forall bs s s', bytes bs -> w64 s -> w64 s' -> murmur64a bs s = murmur64a bs s' -> s = s'.
Proof.
  intros bs s s' B Ls Ls' E. rewrite !murmur64a_is in E.
  apply (digest_inj_s 8 block64a _ (fun h => w64 h)) with (n := length bs) in E; word.
  - apply lxor_inj_l in E. auto.
  - apply block64a_good. - apply block64a_inj_s.
  - intros a a' t Ga Ga' Bt Lt Er. apply final64a_inj in Er; word. apply rest64a_inj_h in Er; word.
Qed.
Lemma murmur64a_block : forall k1 k2 s, bytes k1 -> bytes k2 -> w64 s -> differ_within 8 k1 k2 -> murmur64a k1 s <> murmur64a k2 s.
Proof.
  intros k1 k2 s B1 B2 Ls D. rewrite !murmur64a_is. destruct D as [L D]. rewrite <- L.
  apply digest_differ with (good := fun h => w64 h); word.
  - apply block64a_good. - apply block64a_inj_s. - apply block64a_inj_b.
  - intros a a' t Ga Ga' Bt Lt Er. apply final64a_inj in Er; word. apply rest64a_inj_h in Er; word.
  - intros a t t' Ga Bt Bt' Lt Lt' Er. apply final64a_inj in Er; word. apply rest64a_inj_t in Er; word.
  - split; auto.
Qed.

(** ** The functions of MurmurHash3.cpp *)

(** *** MurmurHash3_x86_32 *)
Lemma block3_32_inj_s : forall s s' b, w32 s -> w32 s' -> bytes b -> length b = 4%nat -> block3_32 s b = block3_32 s' b -> s = s'.
Proof. intros s s' b G G' B L E. unfold block3_32, step32 in E. apply stir32_inj in E; word. apply lxor_inj_l in E. auto. Qed.
Lemma block3_32_inj_b : forall s b b', w32 s -> bytes b -> bytes b' -> length b = 4%nat -> length b' = 4%nat -> block3_32 s b = block3_32 s b' -> b = b'.
Proof.
  intros s b b' G B B' L L' E. unfold block3_32, step32 in E. apply stir32_inj in E; word. apply lxor_inj_r in E.
  apply scramble32_inj in E; word; try (apply le32; auto; lia). apply le_inj; auto; lia.
Qed.
Lemma rest3_32_lt : forall h t, w32 h -> w32 (rest3_32 h t).
Proof. intros h [|b t] L; cbn [rest3_32]; word. Qed.
Global Hint Resolve rest3_32_lt : word.
Lemma end3_32_inj_s : forall len s s' t, w32 s -> w32 s' -> bytes t -> (length t < 4)%nat ->
  fmix32 (N.lxor (rest3_32 s t) (uint32 len)) = fmix32 (N.lxor (rest3_32 s' t) (uint32 len)) -> s = s'.
Proof.
  intros len s s' t G G' B L E. apply fmix32_inj in E; word. apply lxor_inj_l in E. destruct t; cbn [rest3_32] in E; auto. apply lxor_inj_l in E. auto.
Qed.
Lemma end3_32_inj_t : forall len s t t', w32 s -> bytes t -> bytes t' -> (length t < 4)%nat -> length t' = length t ->
  fmix32 (N.lxor (rest3_32 s t) (uint32 len)) = fmix32 (N.lxor (rest3_32 s t') (uint32 len)) -> t = t'.
Proof.
  intros len s t t' G B B' L L' E. apply fmix32_inj in E; word. apply lxor_inj_l in E.
  assert (w32 (little_endian t) /\ w32 (little_endian t')) as [W W'] by (split; apply le32; auto; lia).
  destruct t as [|x t], t' as [|x' t']; try discriminate; auto. cbn [rest3_32] in E. apply lxor_inj_r in E.
  apply scramble32_inj in E; word. apply le_inj; auto.
Qed.
Lemma digest3_32_seed : forall len bs s s', bytes bs -> w32 s -> w32 s' -> digest3_32 s len bs = digest3_32 s' len bs -> s = s'.
Proof.
  intros len bs s s' B Ls Ls' E.
  apply (digest_inj_s 4 block3_32 (fun h t => fmix32 (N.lxor (rest3_32 h t) (uint32 len))) (fun h => w32 h)) with (n := length bs) (bs := bs); word.
  - intros. unfold block3_32, step32. word. - apply block3_32_inj_s. - apply end3_32_inj_s.
Qed.
Lemma digest3_32_block : forall len k1 k2 s, bytes k1 -> bytes k2 -> w32 s -> differ_within 4 k1 k2 -> digest3_32 s len k1 <> digest3_32 s len k2.
Proof.
  intros len k1 k2 s B1 B2 Ls D.
  apply (digest_differ N N 4 block3_32 (fun h t => fmix32 (N.lxor (rest3_32 h t) (uint32 len))) (fun h => w32 h)); word.
  - intros. unfold block3_32, step32. word. - apply block3_32_inj_s. - apply block3_32_inj_b. - apply end3_32_inj_s. - apply end3_32_inj_t.
Qed.

(** *** MurmurHash3_x86_128 *)
Definition good4 (h : four) : Prop := let '(a, b, c, d) := h in w32 a /\ w32 b /\ w32 c /\ w32 d.

Lemma word4_lt : forall b i, bytes b -> w32 (word4 b i).
Proof. intros b i B. unfold word4. apply le32; [apply bytes_firstn, bytes_skipn; auto|]. rewrite firstn_length. lia. Qed.
Global Hint Resolve word4_lt : word.

Lemma words4_inj : forall b b', bytes b -> bytes b' -> length b = length b' -> (length b <= 16)%nat ->
  (forall i, (i < 4)%nat -> (4 * i < length b)%nat -> word4 b i = word4 b' i) -> b = b'.
Proof.
  intros b b' B B' L L16 H.
  assert (C : forall i, (i < 4)%nat -> firstn 4 (skipn (4 * i) b) = firstn 4 (skipn (4 * i) b')).
  { intros i I. destruct (Nat.lt_ge_cases (4 * i) (length b)) as [X|X].
    - apply le_part; auto. apply H; auto.
    - rewrite !skipn_all2 by lia. auto. }
  assert (SS : forall (x : list N) a, skipn 4 (skipn (4 * a) x) = skipn (4 * S a) x).
  { intros x a. rewrite skipn_twice. f_equal. lia. }
  assert (F : forall i, (i < 4)%nat -> skipn (4 * S i) b = skipn (4 * S i) b' -> skipn (4 * i) b = skipn (4 * i) b').
  { intros i I E. rewrite <- (firstn_skipn 4 (skipn (4 * i) b)), <- (firstn_skipn 4 (skipn (4 * i) b')), !SS, E, C; auto. }
  change (skipn (4 * 0) b = skipn (4 * 0) b'). apply F; [lia|]. apply F; [lia|]. apply F; [lia|]. apply F; [lia|]. rewrite !skipn_all2 by lia. auto.
Qed.

Lemma step128_good : forall h k, good4 (step128 h k).
Proof. intros [[[? ?] ?] ?] [[[? ?] ?] ?]. unfold step128, good4. cbv zeta. repeat split; word. Qed.
Lemma block3_128_inj_s : forall s s' b, good4 s -> good4 s' -> bytes b -> length b = 16%nat -> block3_128 s b = block3_128 s' b -> s = s'.
Proof.
  intros [[[h1 h2] h3] h4] [[[g1 g2] g3] g4] b (H1 & H2 & H3 & H4) (G1 & G2 & G3 & G4) B L E. unfold block3_128, step128 in E. cbv zeta in E.
  pose proof (f_equal (fun t => fst (fst (fst t))) E) as E1. pose proof (f_equal (fun t => snd (fst (fst t))) E) as E2.
  pose proof (f_equal (fun t => snd (fst t)) E) as E3. pose proof (f_equal snd E) as E4. cbn [fst snd] in *. clear E.
  rewrite E1 in E4. apply stir32_inj in E4; word. apply lxor_inj_l in E4. subst g4.
  apply stir32_inj in E3; word. apply lxor_inj_l in E3. subst g3.
  apply stir32_inj in E2; word. apply lxor_inj_l in E2. subst g2.
  apply stir32_inj in E1; word. apply lxor_inj_l in E1. subst g1. auto.
Qed.
Lemma block3_128_inj_b : forall s b b', good4 s -> bytes b -> bytes b' -> length b = 16%nat -> length b' = 16%nat -> block3_128 s b = block3_128 s b' -> b = b'.
Proof.
  intros [[[h1 h2] h3] h4] b b' (H1 & H2 & H3 & H4) B B' L L' E. unfold block3_128, step128 in E. cbv zeta in E.
  pose proof (f_equal (fun t => fst (fst (fst t))) E) as E1. pose proof (f_equal (fun t => snd (fst (fst t))) E) as E2.
  pose proof (f_equal (fun t => snd (fst t)) E) as E3. pose proof (f_equal snd E) as E4. cbn [fst snd] in *. clear E.
  rewrite E1 in E4. apply stir32_inj in E4; word. apply lxor_inj_r in E4. apply scramble32_inj in E4; word.
  apply stir32_inj in E3; word. apply lxor_inj_r in E3. apply scramble32_inj in E3; word.
  apply stir32_inj in E2; word. apply lxor_inj_r in E2. apply scramble32_inj in E2; word.
  apply stir32_inj in E1; word. apply lxor_inj_r in E1. apply scramble32_inj in E1; word.
  apply words4_inj; auto; try lia. intros i I _. destruct i as [|[|[|[|i]]]]; auto; lia.
Qed.

Lemma spread128_inj : forall h g, good4 h -> good4 g -> spread128 h = spread128 g -> h = g.
Proof.
  intros [[[h1 h2] h3] h4] [[[g1 g2] g3] g4] (H1 & H2 & H3 & H4) (G1 & G2 & G3 & G4) E. unfold spread128 in E. cbv zeta in E.
  pose proof (f_equal (fun t => fst (fst (fst t))) E) as E1. pose proof (f_equal (fun t => snd (fst (fst t))) E) as E2.
  pose proof (f_equal (fun t => snd (fst t)) E) as E3. pose proof (f_equal snd E) as E4. cbn [fst snd] in *. clear E.
  rewrite E1 in E2, E3, E4. apply add32_inj in E2; auto. apply add32_inj in E3; auto. apply add32_inj in E4; auto. subst.
  apply add32_inj in E1; word. apply add32_inj in E1; word. apply add32_inj in E1; word. subst. auto.
Qed.
Lemma spread128_good : forall h, good4 (spread128 h).
Proof. intros [[[? ?] ?] ?]. unfold spread128, good4. cbv zeta. repeat split; word. Qed.
Lemma final128_inj : forall h g len, w32 len -> good4 h -> good4 g -> final128 h len = final128 g len -> h = g.
Proof.
  intros [[[h1 h2] h3] h4] [[[g1 g2] g3] g4] len Ln (H1 & H2 & H3 & H4) (G1 & G2 & G3 & G4) E. unfold final128 in E.
  pose proof (spread128_good (N.lxor h1 len, N.lxor h2 len, N.lxor h3 len, N.lxor h4 len)) as SH.
  pose proof (spread128_good (N.lxor g1 len, N.lxor g2 len, N.lxor g3 len, N.lxor g4 len)) as SG.
  destruct (spread128 (N.lxor h1 len, _, _, _)) as [[[a1 a2] a3] a4] eqn:Ea.
  destruct (spread128 (N.lxor g1 len, _, _, _)) as [[[b1 b2] b3] b4] eqn:Eb.
  destruct SH as (A1 & A2 & A3 & A4), SG as (B1 & B2 & B3 & B4).
  apply spread128_inj in E; try (refine (conj _ (conj _ (conj _ _))); word).
  injection E as E1 E2 E3 E4. apply fmix32_inj in E1; auto. apply fmix32_inj in E2; auto. apply fmix32_inj in E3; auto. apply fmix32_inj in E4; auto.
  subst. rewrite <- Eb in Ea. apply spread128_inj in Ea; try (refine (conj _ (conj _ (conj _ _))); word).
  injection Ea as E1 E2 E3 E4. apply lxor_inj_l in E1, E2, E3, E4. congruence.
Qed.

Lemma rest3_128_good : forall h t, good4 h -> good4 (rest3_128 h t).
Proof.
  intros [[[h1 h2] h3] h4] t (H1 & H2 & H3 & H4). unfold rest3_128, good4. cbv zeta.
  repeat split; match goal with |- context [if ?c then _ else _] => destruct c end; word.
Qed.
Lemma rest3_128_inj_s : forall s s' t, rest3_128 s t = rest3_128 s' t -> s = s'.
Proof.
  intros [[[h1 h2] h3] h4] [[[g1 g2] g3] g4] t E. unfold rest3_128 in E. cbv zeta in E. injection E as E1 E2 E3 E4.
  destruct (Nat.ltb 0 _), (Nat.ltb 4 _), (Nat.ltb 8 _), (Nat.ltb 12 _);
    repeat match goal with H : N.lxor _ _ = N.lxor _ _ |- _ => apply lxor_inj_l in H end; congruence.
Qed.
Lemma rest3_128_inj_t : forall s t t', bytes t -> bytes t' -> (length t < 16)%nat -> length t' = length t -> rest3_128 s t = rest3_128 s t' -> t = t'.
Proof.
  intros [[[h1 h2] h3] h4] t t' B B' L L' E. unfold rest3_128 in E. cbv zeta in E. rewrite L' in E. injection E as E1 E2 E3 E4.
  apply words4_inj; auto; try lia. intros i I J.
  destruct i as [|[|[|[|i]]]]; [| | | |lia];
    [destruct (Nat.ltb_spec 0 (length t)); [|lia]; apply lxor_inj_r, scramble32_inj in E1; word
    |destruct (Nat.ltb_spec 4 (length t)); [|lia]; apply lxor_inj_r, scramble32_inj in E2; word
    |destruct (Nat.ltb_spec 8 (length t)); [|lia]; apply lxor_inj_r, scramble32_inj in E3; word
    |destruct (Nat.ltb_spec 12 (length t)); [|lia]; apply lxor_inj_r, scramble32_inj in E4; word].
Qed.
Lemma digest3_128_seed : forall len bs s s', bytes bs -> w32 s -> w32 s' -> digest3_128 s len bs = digest3_128 s' len bs -> s = s'.
Proof.
  intros len bs s s' B Ls Ls' E.
  assert ((s, s, s, s) = (s', s', s', s')) as X; [|congruence].
  apply (digest_inj_s 16 block3_128 (fun h t => final128 (rest3_128 h t) (uint32 len)) good4) with (n := length bs) (bs := bs); word; try (hnf; auto; fail).
  - intros. unfold block3_128. apply step128_good. - apply block3_128_inj_s.
  - intros a a' t Ga Ga' Bt Lt Er. apply final128_inj in Er; auto using rest3_128_good; word. apply rest3_128_inj_s in Er; auto.
Qed.
Lemma digest3_128_block : forall len k1 k2 s, bytes k1 -> bytes k2 -> w32 s -> differ_within 16 k1 k2 -> digest3_128 s len k1 <> digest3_128 s len k2.
Proof.
  intros len k1 k2 s B1 B2 Ls D.
  apply (digest_differ _ _ 16 block3_128 (fun h t => final128 (rest3_128 h t) (uint32 len)) good4); word; try (hnf; auto; fail).
  - intros. unfold block3_128. apply step128_good. - apply block3_128_inj_s. - apply block3_128_inj_b.
  - intros a a' t Ga Ga' Bt Lt Er. apply final128_inj in Er; auto using rest3_128_good; word. apply rest3_128_inj_s in Er; auto.
  - intros a t t' Ga Bt Bt' Lt Lt' Er. apply final128_inj in Er; auto using rest3_128_good; word. apply rest3_128_inj_t in Er; auto.
Qed.

(** *** MurmurHash3_x64_128 *)
Definition good_2 (h : N * N) : Prop := let '(a, b) := h in w64 a /\ w64 b.

Lemma word8_lt : forall b i, bytes b -> w64 (word8 b i).
Proof. intros b i B. unfold word8. apply le64; [apply bytes_firstn, bytes_skipn; auto|]. rewrite firstn_length. lia. Qed.
Global Hint Resolve word8_lt : word.

Lemma words8_inj : forall b b', bytes b -> bytes b' -> length b = length b' -> (length b <= 16)%nat ->
  (forall i, (i < 2)%nat -> (8 * i < length b)%nat -> word8 b i = word8 b' i) -> b = b'.
Proof.
  intros b b' B B' L L16 H.
  assert (C : forall i, (i < 2)%nat -> firstn 8 (skipn (8 * i) b) = firstn 8 (skipn (8 * i) b')).
  { intros i I. destruct (Nat.lt_ge_cases (8 * i) (length b)) as [X|X].
    - apply le_part; auto. apply H; auto.
    - rewrite !skipn_all2 by lia. auto. }
  assert (SS : forall (x : list N) a, skipn 8 (skipn (8 * a) x) = skipn (8 * S a) x).
  { intros x a. rewrite skipn_twice. f_equal. lia. }
  assert (F : forall i, (i < 2)%nat -> skipn (8 * S i) b = skipn (8 * S i) b' -> skipn (8 * i) b = skipn (8 * i) b').
  { intros i I E. rewrite <- (firstn_skipn 8 (skipn (8 * i) b)), <- (firstn_skipn 8 (skipn (8 * i) b')), !SS, E, C; auto. }
  change (skipn (8 * 0) b = skipn (8 * 0) b'). apply F; [lia|]. apply F; [lia|]. rewrite !skipn_all2 by lia. auto.
Qed.

Lemma step64_good : forall h k, good_2 (step64 h k).
Proof. intros [? ?] [? ?]. unfold step64, good_2. cbv zeta. split; word. Qed.
Lemma block3_64_inj_s : forall s s' b, good_2 s -> good_2 s' -> bytes b -> length b = 16%nat -> block3_64 s b = block3_64 s' b -> s = s'.
Proof.
  intros [h1 h2] [g1 g2] b (H1 & H2) (G1 & G2) B L E. unfold block3_64, step64 in E. cbv zeta in E.
  pose proof (f_equal fst E) as E1. pose proof (f_equal snd E) as E2. cbn [fst snd] in *. clear E.
  rewrite E1 in E2. apply stir64_inj in E2; word. apply lxor_inj_l in E2. subst g2.
  apply stir64_inj in E1; word. apply lxor_inj_l in E1. subst g1. auto.
Qed.
Lemma block3_64_inj_b : forall s b b', good_2 s -> bytes b -> bytes b' -> length b = 16%nat -> length b' = 16%nat -> block3_64 s b = block3_64 s b' -> b = b'.
Proof.
  intros [h1 h2] b b' (H1 & H2) B B' L L' E. unfold block3_64, step64 in E. cbv zeta in E.
  pose proof (f_equal fst E) as E1. pose proof (f_equal snd E) as E2. cbn [fst snd] in *. clear E.
  rewrite E1 in E2. apply stir64_inj in E2; word. apply lxor_inj_r in E2. apply scramble64_inj in E2; word.
  apply stir64_inj in E1; word. apply lxor_inj_r in E1. apply scramble64_inj in E1; word.
  apply words8_inj; auto; try lia. intros i I _. destruct i as [|[|i]]; auto; lia.
Qed.
Lemma spread64_inj : forall h g, good_2 h -> good_2 g -> spread64 h = spread64 g -> h = g.
Proof.
  intros [h1 h2] [g1 g2] (H1 & H2) (G1 & G2) E. unfold spread64 in E. cbv zeta in E.
  pose proof (f_equal fst E) as E1. pose proof (f_equal snd E) as E2. cbn [fst snd] in *. clear E.
  rewrite E1 in E2. apply add64_inj in E2; auto. subst. apply add64_inj in E1; word. subst. auto.
Qed.
Lemma spread64_good : forall h, good_2 (spread64 h).
Proof. intros [? ?]. unfold spread64, good_2. cbv zeta. split; word. Qed.
Lemma final64_inj : forall h g len, w64 len -> good_2 h -> good_2 g -> final64 h len = final64 g len -> h = g.
Proof.
  intros [h1 h2] [g1 g2] len Ln (H1 & H2) (G1 & G2) E. unfold final64 in E.
  pose proof (spread64_good (N.lxor h1 len, N.lxor h2 len)) as SH. pose proof (spread64_good (N.lxor g1 len, N.lxor g2 len)) as SG.
  destruct (spread64 (N.lxor h1 len, _)) as [a1 a2] eqn:Ea. destruct (spread64 (N.lxor g1 len, _)) as [b1 b2] eqn:Eb.
  destruct SH as (A1 & A2), SG as (B1 & B2).
  apply spread64_inj in E; try (refine (conj _ _); word).
  injection E as E1 E2. apply fmix64_inj in E1; auto. apply fmix64_inj in E2; auto.
  subst. rewrite <- Eb in Ea. apply spread64_inj in Ea; try (refine (conj _ _); word).
  injection Ea as E1 E2. apply lxor_inj_l in E1, E2. congruence.
Qed.
Lemma rest3_64_good : forall h t, bytes t -> good_2 h -> good_2 (rest3_64 h t).
Proof.
  intros [h1 h2] t B (H1 & H2). unfold rest3_64, good_2. cbv zeta.
  split; match goal with |- context [if ?c then _ else _] => destruct c end; word.
Qed.
Lemma rest3_64_inj_s : forall s s' t, rest3_64 s t = rest3_64 s' t -> s = s'.
Proof.
  intros [h1 h2] [g1 g2] t E. unfold rest3_64 in E. cbv zeta in E. injection E as E1 E2.
  destruct (Nat.ltb 0 _), (Nat.ltb 8 _); repeat match goal with H : N.lxor _ _ = N.lxor _ _ |- _ => apply lxor_inj_l in H end; congruence.
Qed.
Lemma rest3_64_inj_t : forall s t t', bytes t -> bytes t' -> (length t < 16)%nat -> length t' = length t -> rest3_64 s t = rest3_64 s t' -> t = t'.
Proof.
  intros [h1 h2] t t' B B' L L' E. unfold rest3_64 in E. cbv zeta in E. rewrite L' in E. injection E as E1 E2.
  apply words8_inj; auto; try lia. intros i I J.
  destruct i as [|[|i]]; [| |lia];
    [destruct (Nat.ltb_spec 0 (length t)); [|lia]; apply lxor_inj_r, scramble64_inj in E1; word
    |destruct (Nat.ltb_spec 8 (length t)); [|lia]; apply lxor_inj_r, scramble64_inj in E2; word].
Qed.
Lemma digest3_64_seed : forall len bs s s', bytes bs -> w64 s -> w64 s' -> digest3_64 s len bs = digest3_64 s' len bs -> s = s'.
Proof.
  intros len bs s s' B Ls Ls' E.
  assert ((s, s) = (s', s')) as X; [|congruence].
  apply (digest_inj_s 16 block3_64 (fun h t => final64 (rest3_64 h t) (uint64 len)) good_2) with (n := length bs) (bs := bs); word; try (hnf; auto; fail).
  - intros. unfold block3_64. apply step64_good. - apply block3_64_inj_s.
  - intros a a' t Ga Ga' Bt Lt Er. apply final64_inj in Er; auto using rest3_64_good; word. apply rest3_64_inj_s in Er; auto.
Qed.
Lemma digest3_64_block : forall len k1 k2 s, bytes k1 -> bytes k2 -> w64 s -> differ_within 16 k1 k2 -> digest3_64 s len k1 <> digest3_64 s len k2.
Proof.
  intros len k1 k2 s B1 B2 Ls D.
  apply (digest_differ _ _ 16 block3_64 (fun h t => final64 (rest3_64 h t) (uint64 len)) good_2); word; try (hnf; auto; fail).
  - intros. unfold block3_64. apply step64_good. - apply block3_64_inj_s. - apply block3_64_inj_b.
  - intros a a' t Ga Ga' Bt Lt Er. apply final64_inj in Er; auto using rest3_64_good; word. apply rest3_64_inj_s in Er; auto.
  - intros a t t' Ga Bt Bt' Lt Lt' Er. apply final64_inj in Er; auto using rest3_64_good; word. apply rest3_64_inj_t in Er; auto.
Qed.
