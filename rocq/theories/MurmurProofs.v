(** * MurmurProofs: what the hash functions in third-party compute. *)
From Coq Require Import Arith.
From Verif Require Import Base ModelHash ModelMurmur SpecMurmur.
Local Open Scope N_scope.

(** ** Bytes and words *)
Definition bytes (bs : list N) : Prop := Forall (fun b => b < 256) bs.

Lemma byte_at_lt : forall m p, byte_at m p < 256.
Proof. intros. unfold byte_at. apply N.mod_lt. lia. Qed.

Lemma bytes_from_bytes : forall m n p, bytes (bytes_from m p n).
Proof. induction n as [|n IH]; intros p; cbn [bytes_from]; constructor; [apply byte_at_lt|apply IH]. Qed.

Lemma bytes_from_length : forall m n p, length (bytes_from m p n) = n.
Proof. induction n as [|n IH]; intros p; cbn [bytes_from length]; auto. Qed.

Lemma bytes_from_app : forall m n k p, bytes_from m p (n + k) = bytes_from m p n ++ bytes_from m (p + N.of_nat n) k.
Proof.
  induction n as [|n IH]; intros k p; cbn [plus bytes_from app]; [rewrite N.add_0_r; auto|].
  rewrite IH. replace (p + 1 + N.of_nat n) with (p + N.of_nat (S n)) by lia. reflexivity.
Qed.

Lemma bytes_app : forall a b, bytes (a ++ b) <-> bytes a /\ bytes b.
Proof. intros. apply Forall_app. Qed.

Lemma le_lt : forall bs, bytes bs -> little_endian bs < 256 ^ N.of_nat (length bs).
Proof.
  induction 1 as [|b bs Hb _ IH]; cbn [little_endian length]; [cbn; lia|].
  rewrite Nat2N.inj_succ, N.pow_succ_r'. nia.
Qed.

Lemma le_app : forall a b, little_endian (a ++ b) = little_endian a + 256 ^ N.of_nat (length a) * little_endian b.
Proof.
  induction a as [|x a IH]; intros b; cbn [app little_endian length]; [cbn [N.of_nat]; rewrite N.pow_0_r; lia|].
  rewrite IH, Nat2N.inj_succ, N.pow_succ_r'. lia.
Qed.

Lemma pow256 : forall n, 256 ^ n = 2 ^ (8 * n).
Proof. intros. rewrite N.pow_mul_r. reflexivity. Qed.

(** Numbers without common bits. *)
Lemma land_shifted : forall x y n, x < 2 ^ n -> N.land x (N.shiftl y n) = 0.
Proof.
  intros x y n L. apply N.bits_inj. intros i. rewrite N.land_spec, N.bits_0.
  destruct (N.lt_ge_cases i n) as [I|I].
  - rewrite N.shiftl_spec_low by auto. apply andb_false_r.
  - destruct (N.eq_dec x 0) as [->|Z]; [rewrite N.bits_0; auto|].
    rewrite (N.bits_above_log2 x i); auto. apply N.log2_lt_pow2 in L; lia.
Qed.

Lemma lxor_shifted : forall x y n, x < 2 ^ n -> N.lxor x (N.shiftl y n) = x + 2 ^ n * y.
Proof.
  intros x y n L. rewrite <- N.add_nocarry_lxor by (apply land_shifted; auto).
  rewrite N.shiftl_mul_pow2. lia.
Qed.

Lemma lor_shifted : forall x y n, x < 2 ^ n -> N.lor x (N.shiftl y n) = x + 2 ^ n * y.
Proof.
  intros x y n L. rewrite <- N.lxor_lor by (apply land_shifted; auto). apply lxor_shifted; auto.
Qed.

(** ** Programs that read *)
Definition gives {A} (r : reading A) (a : A) (P : N * N -> Prop) : Prop :=
  exists l, r = Ok (a, l) /\ Forall P l.

Lemma gives_yield : forall A (a : A) P, gives (yield a) a P.
Proof. intros. exists []. split; auto. Qed.

Lemma gives_after : forall A B (e : reading A) (f : A -> reading B) a b P,
  gives e a P -> gives (f a) b P -> gives (after e f) b P.
Proof.
  intros A B e f a b P (l1 & -> & F1) (l2 & E2 & F2). exists (l1 ++ l2). split; [|apply Forall_app; auto].
  unfold after. cbn [rbind]. rewrite E2. reflexivity.
Qed.

Lemma gives_read8 : forall m p (P : N * N -> Prop), P (p, 1) -> gives (read8 m p) (byte_at m p) P.
Proof. intros. eexists. split; [reflexivity|]. auto. Qed.
Lemma gives_read32 : forall m p (P : N * N -> Prop), P (p, 4) -> gives (read32 m p) (word_at m p 4) P.
Proof. intros. eexists. split; [reflexivity|]. auto. Qed.
Lemma gives_read64 : forall m p (P : N * N -> Prop), P (p, 8) -> gives (read64 m p) (word_at m p 8) P.
Proof. intros. eexists. split; [reflexivity|]. auto. Qed.

Lemma word_little : forall m p n, big_endian m = false -> word_at m p n = little_endian (bytes_from m p n).
Proof. intros m p n E. unfold word_at. rewrite E. reflexivity. Qed.

(** Bytes put together with shifts. *)
Lemma shl32_small : forall b n, b < 2 ^ (32 - n) -> n <= 32 -> shl32 b n = N.shiftl b n.
Proof.
  intros b n L I. unfold shl32. apply N.mod_small. rewrite N.shiftl_mul_pow2.
  replace (2 ^ 32) with (2 ^ (32 - n) * 2 ^ n) by (rewrite <- N.pow_add_r; f_equal; lia).
  apply N.mul_lt_mono_pos_r; auto. apply N.neq_0_lt_0, N.pow_nonzero. lia.
Qed.
Lemma shl64_small : forall b n, b < 2 ^ (64 - n) -> n <= 64 -> shl64 b n = N.shiftl b n.
Proof.
  intros b n L I. unfold shl64. apply N.mod_small. rewrite N.shiftl_mul_pow2.
  replace (2 ^ 64) with (2 ^ (64 - n) * 2 ^ n) by (rewrite <- N.pow_add_r; f_equal; lia).
  apply N.mul_lt_mono_pos_r; auto. apply N.neq_0_lt_0, N.pow_nonzero. lia.
Qed.

Lemma pow_le8 : forall a, 8 <= a -> 256 <= 2 ^ a.
Proof. intros a L. change 256 with (2 ^ 8). apply N.pow_le_mono_r; lia. Qed.

Lemma gather_gives : forall (shl : N -> N -> N) w m p (P : N * N -> Prop),
  (forall b i, b < 256 -> (i < w)%nat -> shl b (8 * N.of_nat i) = N.shiftl b (8 * N.of_nat i)) ->
  forall n k, (n <= w)%nat -> (forall i, (i < n)%nat -> P (p + N.of_nat i, 1)) ->
  gives (gather shl m p n k) (N.lxor k (little_endian (bytes_from m p n))) P.
Proof.
  intros shl w m p P Hs. induction n as [|n IH]; intros k L HP; cbn [gather].
  - cbn. rewrite N.lxor_0_r. apply gives_yield.
  - eapply gives_after; [apply gives_read8, HP; lia|].
    replace (S n) with (n + 1)%nat by lia. rewrite bytes_from_app, le_app. cbn [bytes_from little_endian].
    rewrite bytes_from_length, pow256. rewrite N.mul_0_r, N.add_0_r.
    rewrite <- lxor_shifted.
    2: { rewrite <- pow256. pose proof (le_lt _ (bytes_from_bytes m n p)) as X. rewrite bytes_from_length in X. exact X. }
    rewrite (N.lxor_comm (little_endian _)), <- N.lxor_assoc. rewrite <- Hs by (try apply byte_at_lt; lia).
    apply IH; [lia|]. intros i I. apply HP. lia.
Qed.

Lemma shl32_byte : forall b i, b < 256 -> (i < 4)%nat -> shl32 b (8 * N.of_nat i) = N.shiftl b (8 * N.of_nat i).
Proof. intros b i B I. apply shl32_small; [|lia]. pose proof (pow_le8 (32 - 8 * N.of_nat i)). lia. Qed.
Lemma shl64_byte : forall b i, b < 256 -> (i < 8)%nat -> shl64 b (8 * N.of_nat i) = N.shiftl b (8 * N.of_nat i).
Proof. intros b i B I. apply shl64_small; [|lia]. pose proof (pow_le8 (64 - 8 * N.of_nat i)). lia. Qed.

Lemma gather32 : forall m p (P : N * N -> Prop) n k, (n <= 4)%nat -> (forall i, (i < n)%nat -> P (p + N.of_nat i, 1)) ->
  gives (gather shl32 m p n k) (N.lxor k (little_endian (bytes_from m p n))) P.
Proof. intros. apply gather_gives with (w := 4%nat); auto. apply shl32_byte. Qed.
Lemma gather64 : forall m p (P : N * N -> Prop) n k, (n <= 8)%nat -> (forall i, (i < n)%nat -> P (p + N.of_nat i, 1)) ->
  gives (gather shl64 m p n k) (N.lxor k (little_endian (bytes_from m p n))) P.
Proof. intros. apply gather_gives with (w := 8%nat); auto. apply shl64_byte. Qed.

Lemma read8_same : forall m p q, p = q -> read8 m p = read8 m q.
Proof. intros. subst. auto. Qed.

Lemma case1_gather : forall m p h, case1 m p h = gather shl32 m p 1 h.
Proof.
  intros. unfold case1. cbn [gather N.of_nat]. rewrite N.add_0_r. unfold read8, after. cbn [rbind].
  replace (shl32 (byte_at m p) (8 * 0)) with (byte_at m p); auto.
  rewrite shl32_small; [rewrite N.mul_0_r, N.shiftl_0_r; auto| |lia]. pose proof (byte_at_lt m p). cbn. lia.
Qed.
Lemma case2_gather : forall m p h, case2 m p h = gather shl32 m p 2 h.
Proof. intros. unfold case2. change (gather shl32 m p 2 h) with (let! b := read8 m (p + 1) in gather shl32 m p 1 (N.lxor h (shl32 b 8))). unfold after, read8. cbn [rbind]. rewrite case1_gather. reflexivity. Qed.
Lemma case3_gather : forall m p h, case3 m p h = gather shl32 m p 3 h.
Proof. intros. unfold case3. change (gather shl32 m p 3 h) with (let! b := read8 m (p + 2) in gather shl32 m p 2 (N.lxor h (shl32 b 16))). unfold after, read8. cbn [rbind]. rewrite case2_gather. reflexivity. Qed.

(** ** Consuming a key block by block *)
Section Eat.
  Context {St : Type} (w : nat) (step : St -> list N -> St).

  Fixpoint eat_blocks (q : nat) (s : St) (bs : list N) : St * list N :=
    match q with
    | O => (s, bs)
    | S q' => eat_blocks q' (step s (firstn w bs)) (skipn w bs)
    end.
  Definition eat (s : St) (bs : list N) : St * list N := eat_blocks (length bs / w) s bs.

  Hypothesis w_pos : (0 < w)%nat.

  Lemma eat_short : forall s bs, (length bs < w)%nat -> eat s bs = (s, bs).
  Proof. intros s bs L. unfold eat. rewrite Nat.div_small by auto. reflexivity. Qed.

  Lemma eat_block : forall s b bs, length b = w -> eat s (b ++ bs) = eat (step s b) bs.
  Proof.
    intros s b bs L. unfold eat. rewrite app_length, L.
    replace (w + length bs)%nat with (length bs + 1 * w)%nat by lia. rewrite Nat.div_add by lia.
    rewrite Nat.add_1_r. cbn [eat_blocks]. rewrite firstn_app, skipn_app, L, Nat.sub_diag, firstn_O, skipn_O, app_nil_r.
    rewrite (firstn_all2 (n := w) b), (skipn_all2 (n := w) b) by lia. reflexivity.
  Qed.

  Lemma eat_rest : forall n s bs, (length bs <= n)%nat -> (length (snd (eat s bs)) < w)%nat.
  Proof.
    induction n as [|n IH]; intros s bs L.
    - rewrite eat_short by lia. cbn. lia.
    - destruct (Nat.lt_ge_cases (length bs) w) as [X|X]; [rewrite eat_short by auto; auto|].
      rewrite <- (firstn_skipn w bs), eat_block by (rewrite firstn_length; lia). apply IH. rewrite skipn_length. lia.
  Qed.

  Lemma eat_app : forall n s a b, (length a <= n)%nat -> eat s (a ++ b) = eat (fst (eat s a)) (snd (eat s a) ++ b).
  Proof.
    induction n as [|n IH]; intros s a b L.
    - rewrite (eat_short s a) by lia. reflexivity.
    - destruct (Nat.lt_ge_cases (length a) w) as [X|X]; [rewrite (eat_short s a) by auto; auto|].
      pose proof (firstn_skipn w a) as Ea. assert (Lx : length (firstn w a) = w) by (rewrite firstn_length; lia).
      assert (Ly : (length (skipn w a) <= n)%nat) by (rewrite skipn_length; lia).
      revert Ea Lx Ly. generalize (firstn w a) (skipn w a). intros x y <- Lx Ly.
      rewrite <- app_assoc, (eat_block s x (y ++ b)), (eat_block s x y) by auto. apply IH. auto.
  Qed.
End Eat.

(** ** MurmurHash2 *)
Definition block2 (h : N) (b : list N) : N := mix2 h (little_endian b).
Notation eat2 := (eat 4 block2).

Definition rest2 (h : N) (t : list N) : N :=
  match t with [] => h | _ => mul32 (N.lxor h (little_endian t)) m2 end.

Lemma tail2_gives : forall m data len h (P : N * N -> Prop), (len < 4)%Z ->
  (forall i, (Z.of_nat i < len)%Z -> P (data + N.of_nat i, 1)) ->
  gives (tail2 m data len h) (rest2 h (bytes_from m data (Z.to_nat len))) P.
Proof.
  intros m data len h P L HP. unfold tail2.
  assert (C : (len <= 0 \/ len = 1 \/ len = 2 \/ len = 3)%Z) by lia. destruct C as [C|[ -> |[ -> | -> ]]].
  - replace (Z.to_nat len) with 0%nat by lia. destruct len as [|p|p]; try lia; apply gives_yield.
  - rewrite case1_gather. eapply gives_after; [apply gather32; [lia|intros; apply HP; lia]|apply gives_yield].
  - rewrite case2_gather. eapply gives_after; [apply gather32; [lia|intros; apply HP; lia]|apply gives_yield].
  - rewrite case3_gather. eapply gives_after; [apply gather32; [lia|intros; apply HP; lia]|apply gives_yield].
Qed.

Lemma bytes_from_4 : forall m data len, (4 <= len)%Z ->
  bytes_from m data (Z.to_nat len) = bytes_from m data 4 ++ bytes_from m (data + 4) (Z.to_nat (len - 4)).
Proof.
  intros m data len L. replace (Z.to_nat len) with (4 + Z.to_nat (len - 4))%nat by lia.
  rewrite bytes_from_app. reflexivity.
Qed.

Lemma loop2_gives : forall m (P : N * N -> Prop), big_endian m = false ->
  forall fuel data len h, (Z.to_nat len < fuel)%nat ->
  (forall j, (Z.of_N (4 * j + 4) <= len)%Z -> P (data + 4 * j, 4)) ->
  exists q h', (len - Z.of_N (4 * q) < 4)%Z /\ (4 * Z.of_N q <= Z.max 0 len)%Z /\
    eat2 h (bytes_from m data (Z.to_nat len)) = (h', bytes_from m (data + 4 * q) (Z.to_nat (len - Z.of_N (4 * q)))) /\
    gives (loop2 fuel m data len h) (data + 4 * q, (len - Z.of_N (4 * q))%Z, h') P.
Proof.
  intros m P Le. induction fuel as [|fuel IH]; intros data len h F HP; [lia|]. cbn [loop2].
  destruct (Z.leb_spec 4 len) as [L|L].
  - destruct (IH (data + 4) (len - 4)%Z (block2 h (bytes_from m data 4))) as (q & h' & A & B & E & G); [lia| |].
    { intros j J. replace (data + 4 + 4 * j) with (data + 4 * (j + 1)) by lia. apply HP. lia. }
    exists (q + 1), h'. split; [lia|]. split; [lia|]. rewrite bytes_from_4 by auto. rewrite eat_block by (try apply bytes_from_length; lia). rewrite E.
    replace (data + 4 * (q + 1)) with (data + 4 + 4 * q) by lia.
    replace (len - Z.of_N (4 * (q + 1)))%Z with (len - 4 - Z.of_N (4 * q))%Z by lia. split; auto.
    eapply gives_after; [apply gives_read32; specialize (HP 0); rewrite N.mul_0_r, N.add_0_r in HP; apply HP; lia|].
    rewrite word_little by auto. exact G.
  - exists 0, h. cbn [N.mul Z.of_N]. rewrite N.add_0_r, Z.sub_0_r. split; [lia|]. split; [lia|].
    split; [apply eat_short; rewrite bytes_from_length; lia|apply gives_yield].
Qed.

Definition digest2 (seed : N) (len : Z) (bs : list N) : N :=
  let '(h, t) := eat2 (N.lxor seed (uint32 len)) bs in final2 (rest2 h t).

Lemma MurmurHash2_gives : forall m key len seed (P : N * N -> Prop), big_endian m = false ->
  (forall j, (Z.of_N (4 * j + 4) <= len)%Z -> P (key + 4 * j, 4)) ->
  (forall i, (Z.of_nat i < len)%Z -> P (key + N.of_nat i, 1)) ->
  gives (MurmurHash2 m key len seed) (digest2 seed len (key_at m key len)) P.
Proof.
  intros m key len seed P Le H4 H1. unfold MurmurHash2, digest2, key_at.
  destruct (loop2_gives m P Le (rounds len) key len (N.lxor seed (uint32 len))) as (q & h' & A & B & E & G); [unfold rounds; lia|auto|].
  rewrite E. eapply gives_after; [exact G|]. cbn beta iota.
  eapply gives_after; [apply tail2_gives; auto|apply gives_yield].
  intros i I. replace (key + 4 * q + N.of_nat i) with (key + N.of_nat (N.to_nat (4 * q) + i)) by lia. apply H1. lia.
Qed.

(** ** MurmurHashNeutral2 *)
Lemma or4_le : forall m p,
  N.lor (N.lor (N.lor (byte_at m p) (shl32 (byte_at m (p + 1)) 8)) (shl32 (byte_at m (p + 2)) 16)) (shl32 (byte_at m (p + 3)) 24)
  = little_endian (bytes_from m p 4).
Proof.
  intros m p. pose proof (byte_at_lt m p). pose proof (byte_at_lt m (p + 1)). pose proof (byte_at_lt m (p + 2)). pose proof (byte_at_lt m (p + 3)).
  change 8 with (8 * N.of_nat 1) at 1. change 16 with (8 * N.of_nat 2). change 24 with (8 * N.of_nat 3).
  rewrite !shl32_byte by (auto; lia). change (8 * N.of_nat 1) with 8. change (8 * N.of_nat 2) with 16. change (8 * N.of_nat 3) with 24.
  rewrite (lor_shifted (byte_at m p)) by (change (2 ^ 8) with 256; auto). change (2 ^ 8) with 256.
  rewrite (lor_shifted _ _ 16) by (change (2 ^ 16) with 65536; lia). change (2 ^ 16) with 65536.
  rewrite (lor_shifted _ _ 24) by (change (2 ^ 24) with 16777216; lia). change (2 ^ 24) with 16777216.
  cbn [bytes_from little_endian]. replace (p + 1 + 1) with (p + 2) by lia. replace (p + 2 + 1) with (p + 3) by lia. lia.
Qed.

Lemma loop_neutral_gives : forall m (P : N * N -> Prop),
  forall fuel data len h, (Z.to_nat len < fuel)%nat ->
  (forall i, (Z.of_N i < len)%Z -> P (data + i, 1)) ->
  exists q h', (len - Z.of_N (4 * q) < 4)%Z /\ (4 * Z.of_N q <= Z.max 0 len)%Z /\
    eat2 h (bytes_from m data (Z.to_nat len)) = (h', bytes_from m (data + 4 * q) (Z.to_nat (len - Z.of_N (4 * q)))) /\
    gives (loop_neutral fuel m data len h) (data + 4 * q, (len - Z.of_N (4 * q))%Z, h') P.
Proof.
  intros m P. induction fuel as [|fuel IH]; intros data len h F HP; [lia|]. cbn [loop_neutral].
  destruct (Z.leb_spec 4 len) as [L|L].
  - destruct (IH (data + 4) (len - 4)%Z (block2 h (bytes_from m data 4))) as (q & h' & A & B & E & G); [lia| |].
    { intros i I. replace (data + 4 + i) with (data + (4 + i)) by lia. apply HP. lia. }
    exists (q + 1), h'. split; [lia|]. split; [lia|]. rewrite bytes_from_4 by auto. rewrite eat_block by (try apply bytes_from_length; lia). rewrite E.
    replace (data + 4 * (q + 1)) with (data + 4 + 4 * q) by lia.
    replace (len - Z.of_N (4 * (q + 1)))%Z with (len - 4 - Z.of_N (4 * q))%Z by lia. split; auto.
    eapply gives_after; [apply gives_read8; rewrite <- (N.add_0_r data); apply HP; lia|].
    eapply gives_after; [apply gives_read8, HP; lia|].
    eapply gives_after; [apply gives_read8, HP; lia|].
    eapply gives_after; [apply gives_read8, HP; lia|].
    cbv zeta. rewrite or4_le. exact G.
  - exists 0, h. cbn [N.mul Z.of_N]. rewrite N.add_0_r, Z.sub_0_r. split; [lia|]. split; [lia|].
    split; [apply eat_short; rewrite bytes_from_length; lia|apply gives_yield].
Qed.

Lemma MurmurHashNeutral2_gives : forall m key len seed (P : N * N -> Prop),
  (forall i, (Z.of_N i < len)%Z -> P (key + i, 1)) ->
  gives (MurmurHashNeutral2 m key len seed) (digest2 seed len (key_at m key len)) P.
Proof.
  intros m key len seed P H1. unfold MurmurHashNeutral2, digest2, key_at.
  destruct (loop_neutral_gives m P (rounds len) key len (N.lxor seed (uint32 len))) as (q & h' & A & B & E & G); [unfold rounds; lia|auto|].
  rewrite E. eapply gives_after; [exact G|]. cbn beta iota.
  eapply gives_after; [apply tail2_gives; auto|apply gives_yield].
  intros i I. replace (key + 4 * q + N.of_nat i) with (key + (4 * q + N.of_nat i)) by lia. apply H1. lia.
Qed.

(** ** MurmurHash2A and the incremental hasher *)
Definition digest2a (seed : N) (len : Z) (bs : list N) : N :=
  let '(h, t) := eat2 seed bs in final2 (mix2 (mix2 h (little_endian t)) (uint32 len)).

Lemma MurmurHash2A_gives : forall m key len seed (P : N * N -> Prop), big_endian m = false ->
  (forall j, (Z.of_N (4 * j + 4) <= len)%Z -> P (key + 4 * j, 4)) ->
  (forall i, (Z.of_nat i < len)%Z -> P (key + N.of_nat i, 1)) ->
  gives (MurmurHash2A m key len seed) (digest2a seed len (key_at m key len)) P.
Proof.
  intros m key len seed P Le H4 H1. unfold MurmurHash2A, digest2a, key_at.
  destruct (loop2_gives m P Le (rounds len) key len seed) as (q & h' & A & B & E & G); [unfold rounds; lia|auto|].
  rewrite E. eapply gives_after; [exact G|]. cbn beta iota. clear E G.
  set (l := (len - Z.of_N (4 * q))%Z) in *. set (p := key + 4 * q).
  assert (HP : forall i, (Z.of_nat i < l)%Z -> P (p + N.of_nat i, 1)).
  { intros i I. unfold p. replace (key + 4 * q + N.of_nat i) with (key + N.of_nat (N.to_nat (4 * q) + i)) by lia. apply H1. lia. }
  clearbody l p.
  assert (C : (l <= 0 \/ l = 1 \/ l = 2 \/ l = 3)%Z) by lia. destruct C as [C|[ -> |[ -> | -> ]]].
  - replace (Z.to_nat l) with 0%nat by lia. eapply gives_after; [destruct l as [|z|z]; try lia; apply gives_yield|]. apply gives_yield.
  - rewrite case1_gather. eapply gives_after; [apply gather32; [lia|intros; apply HP; lia]|]. rewrite N.lxor_0_l. apply gives_yield.
  - rewrite case2_gather. eapply gives_after; [apply gather32; [lia|intros; apply HP; lia]|]. rewrite N.lxor_0_l. apply gives_yield.
  - rewrite case3_gather. eapply gives_after; [apply gather32; [lia|intros; apply HP; lia]|]. rewrite N.lxor_0_l. apply gives_yield.
Qed.

Lemma lor_le : forall t b, bytes t -> (length t < 4)%nat -> b < 256 ->
  N.lor (little_endian t) (shl32 b (N.of_nat (length t) * 8)) = little_endian (t ++ [b]).
Proof.
  intros t b B L Lb. replace (N.of_nat (length t) * 8) with (8 * N.of_nat (length t)) by lia.
  rewrite shl32_byte by auto. rewrite lor_shifted by (rewrite <- pow256; apply le_lt; auto).
  rewrite le_app, pow256. cbn [little_endian]. lia.
Qed.

Definition holding (c : hasher) (h : N) (t : list N) : Prop :=
  m_hash c = h /\ m_tail c = little_endian t /\ m_count c = N.of_nat (length t) /\ (length t < 4)%nat /\ bytes t.

Lemma MixTail_gives : forall m (P : N * N -> Prop) fuel c data len h t, (Z.to_nat len < fuel)%nat -> (0 <= len)%Z ->
  holding c h t -> (forall i, (Z.of_N i < len)%Z -> P (data + i, 1)) ->
  exists c' k h' t', (Z.of_N k <= len)%Z /\ holding c' h' t' /\ m_sum c' = m_sum c /\
    (len - Z.of_N k = 0 \/ (4 <= len - Z.of_N k)%Z /\ t' = [])%Z /\
    eat2 h (t ++ bytes_from m data (Z.to_nat len)) = eat2 h' (t' ++ bytes_from m (data + k) (Z.to_nat (len - Z.of_N k))) /\
    gives (MixTail fuel m c data len) (c', data + k, (len - Z.of_N k)%Z) P.
Proof.
  intros m P. induction fuel as [|fuel IH]; intros c data len h t F L0 Hc HP; [lia|]. cbn [MixTail].
  destruct Hc as (E1 & E2 & E3 & E4 & E5).
  assert (Stop : (len = 0 \/ (4 <= len)%Z /\ t = [])%Z -> exists c' k h' t', (Z.of_N k <= len)%Z /\ holding c' h' t' /\ m_sum c' = m_sum c /\
    (len - Z.of_N k = 0 \/ (4 <= len - Z.of_N k)%Z /\ t' = [])%Z /\
    eat2 h (t ++ bytes_from m data (Z.to_nat len)) = eat2 h' (t' ++ bytes_from m (data + k) (Z.to_nat (len - Z.of_N k))) /\
    gives (yield (c, data, len)) (c', data + k, (len - Z.of_N k)%Z) P).
  { intros D. exists c, 0, h, t. cbn [Z.of_N]. rewrite N.add_0_r, Z.sub_0_r. split; [lia|]. split; [repeat split; auto|].
    split; auto. split; auto. split; auto. apply gives_yield. }
  destruct (Z.eqb_spec len 0) as [Z0|Z0]; cbn [negb andb]; [apply Stop; auto|].
  destruct (Z.ltb_spec len 4) as [L4|L4]; cbn [orb negb].
  2: destruct (N.eqb_spec (m_count c) 0) as [C0|C0]; cbn [negb].
  2: { apply Stop. right. split; auto. destruct t; auto. cbn in E3. lia. }
  1, 2: replace (Z.to_nat len) with (S (Z.to_nat (len - 1))) by lia; cbn [bytes_from];
    rewrite E2, E3;
    assert (HP1 : forall i, (Z.of_N i < len - 1)%Z -> P (data + 1 + i, 1))
      by (intros i I; rewrite <- N.add_assoc; apply HP; lia);
    replace (t ++ byte_at m data :: bytes_from m (data + 1) (Z.to_nat (len - 1)))
      with ((t ++ [byte_at m data]) ++ bytes_from m (data + 1) (Z.to_nat (len - 1))) by (rewrite <- app_assoc; auto);
    assert (Lt : length (t ++ [byte_at m data]) = S (length t)) by (rewrite app_length; cbn; lia);
    assert (Bt : bytes (t ++ [byte_at m data])) by (apply bytes_app; split; auto; constructor; auto; apply byte_at_lt);
    assert (R0 : gives (read8 m data) (byte_at m data) P) by (apply gives_read8; rewrite <- (N.add_0_r data); apply HP; lia).
  1, 2: assert (Cs : N.of_nat (length t) + 1 = 4 \/ N.of_nat (length t) + 1 <> 4) by lia; destruct Cs as [Full|Full].
  1, 3: destruct (IH (Hasher (mix2 (m_hash c) (little_endian (t ++ [byte_at m data]))) 0 0 (m_sum c)) (data + 1) (len - 1)%Z
      (block2 h (t ++ [byte_at m data])) []) as (c' & k & h' & t' & A1 & A2 & A3 & A4 & A5 & A6);
    [lia|lia|repeat split; cbn; auto; try lia; try (unfold block2; congruence); constructor|auto|];
    exists c', (k + 1), h', t'; replace (data + (k + 1)) with (data + 1 + k) by lia;
    replace (len - Z.of_N (k + 1))%Z with (len - 1 - Z.of_N k)%Z by lia; split; [lia|]; split; auto; split; auto; split; auto;
    split; [rewrite eat_block by lia; exact A5|];
    eapply gives_after; [exact R0|]; cbn beta; rewrite lor_le by (auto; apply byte_at_lt); cbv zeta; rewrite (proj2 (N.eqb_eq _ _) Full); exact A6.
  1, 2: destruct (IH (Hasher (m_hash c) (little_endian (t ++ [byte_at m data])) (N.of_nat (length t) + 1) (m_sum c)) (data + 1) (len - 1)%Z
      h (t ++ [byte_at m data])) as (c' & k & h' & t' & A1 & A2 & A3 & A4 & A5 & A6);
    [lia|lia|repeat split; cbn [m_hash m_tail m_count]; auto; lia|auto|];
    exists c', (k + 1), h', t'; replace (data + (k + 1)) with (data + 1 + k) by lia;
    replace (len - Z.of_N (k + 1))%Z with (len - 1 - Z.of_N k)%Z by lia; split; [lia|]; split; auto; split; auto; split; auto;
    split; [exact A5|];
    eapply gives_after; [exact R0|]; cbn beta; rewrite lor_le by (auto; apply byte_at_lt); cbv zeta; rewrite (proj2 (N.eqb_neq _ _) Full); exact A6.
Qed.

Lemma Add_gives : forall m (P : N * N -> Prop) c data len h t, big_endian m = false -> (0 <= len)%Z -> holding c h t ->
  (forall i n, (Z.of_N (i + n) <= len)%Z -> 0 < n -> P (data + i, n)) ->
  exists c' h' t', holding c' h' t' /\ m_sum c' = add32 (m_sum c) (uint32 len) /\
    eat2 h (t ++ key_at m data len) = (h', t') /\ gives (Add m c data len) c' P.
Proof.
  intros m P c data len h t Le L0 Hc HP. unfold Add, key_at.
  destruct (MixTail_gives m P (rounds len) (Hasher (m_hash c) (m_tail c) (m_count c) (add32 (m_sum c) (uint32 len))) data len h t)
    as (c1 & k1 & h1 & t1 & K1 & H1 & S1 & D1 & E1 & G1); [unfold rounds; lia|auto|apply Hc|intros i I; apply HP; lia|].
  set (len1 := (len - Z.of_N k1)%Z) in *. set (d1 := data + k1) in *.
  destruct H1 as (X1 & X2 & X3 & X4 & X5).
  destruct (loop2_gives m P Le (rounds len) d1 len1 (m_hash c1)) as (q & h2 & A & B & E2 & G2).
  { unfold rounds, len1. lia. } { intros j J. unfold d1. rewrite <- N.add_assoc. apply HP; unfold len1 in J; lia. }
  set (len2 := (len1 - Z.of_N (4 * q))%Z) in *. set (d2 := d1 + 4 * q) in *.
  assert (Hq : eat2 h1 (t1 ++ bytes_from m d1 (Z.to_nat len1)) = eat2 h2 (t1 ++ bytes_from m d2 (Z.to_nat len2)) /\ (0 <= len2)%Z).
  { destruct D1 as [D1|[D1 ->]].
    - assert (q = 0) by lia. subst q. unfold len2, d2. cbn [N.mul Z.of_N]. rewrite Z.sub_0_r, N.add_0_r. split; [|lia].
      rewrite D1 in E2 |- *. cbn [Z.to_nat bytes_from] in E2 |- *. rewrite eat_short in E2 by (cbn; lia). congruence.
    - cbn [app]. rewrite <- X1, E2. unfold len2 in *. split; [|lia]. rewrite eat_short by (rewrite bytes_from_length; lia). auto. }
  destruct Hq as [Eq L2].
  destruct (MixTail_gives m P (rounds len) (Hasher h2 (m_tail c1) (m_count c1) (m_sum c1)) d2 len2 h2 t1)
    as (c3 & k3 & h3 & t3 & K3 & H3 & S3 & D3 & E3 & G3).
  { unfold rounds, len2, len1. lia. } { auto. } { repeat split; auto. }
  { intros i I. unfold d2, d1. rewrite <- !N.add_assoc. apply HP; unfold len2, len1 in *; lia. }
  exists c3, h3, t3. split; auto. split. { rewrite S3. cbn [m_sum]. rewrite S1. reflexivity. }
  split.
  - rewrite E1, Eq, E3. replace (len2 - Z.of_N k3)%Z with 0%Z by (unfold len2 in *; lia). cbn [Z.to_nat bytes_from]. rewrite app_nil_r.
    apply eat_short. apply H3.
  - eapply gives_after; [exact G1|]. cbn beta iota. eapply gives_after; [exact G2|]. cbn beta iota.
    eapply gives_after; [exact G3|]. cbn beta iota. apply gives_yield.
Qed.

Definition total (pieces : list (N * Z)) : Z := fold_right (fun p s => (snd p + s)%Z) 0%Z pieces.
Definition pieces_at (m : machine) (pieces : list (N * Z)) : list N := flat_map (fun p => key_at m (fst p) (snd p)) pieces.

Lemma add_all_gives : forall m (P : N * N -> Prop) pieces c h t, big_endian m = false -> holding c h t ->
  Forall (fun p => (0 <= snd p)%Z) pieces ->
  (forall p len, In (p, len) pieces -> forall i n, (Z.of_N (i + n) <= len)%Z -> 0 < n -> P (p + i, n)) ->
  exists c' h' t', holding c' h' t' /\ m_sum c' = fold_left (fun s p => add32 s (uint32 (snd p))) pieces (m_sum c) /\
    eat2 h (t ++ pieces_at m pieces) = (h', t') /\ gives (add_all m c pieces) c' P.
Proof.
  intros m P. induction pieces as [|[p len] pieces IH]; intros c h t Le Hc F HP; cbn [add_all pieces_at flat_map fold_left fst snd].
  - exists c, h, t. split; auto. split; auto. split; [|apply gives_yield]. rewrite app_nil_r. apply eat_short. apply Hc.
  - inversion F as [|? ? F1 F2]; subst. cbn [snd] in F1.
    destruct (Add_gives m P c p len h t Le F1 Hc (HP p len (or_introl eq_refl))) as (c1 & h1 & t1 & H1 & S1 & E1 & G1).
    destruct (IH c1 h1 t1 Le H1 F2) as (c2 & h2 & t2 & H2 & S2 & E2 & G2). { intros p' l' I. apply (HP p' l'). right; auto. }
    exists c2, h2, t2. split; auto. split; [rewrite S2, S1; auto|]. split.
    + rewrite app_assoc, (eat_app 4 block2 ltac:(lia) (length (t ++ key_at m p len)) h _ _ (le_n _)).
      rewrite E1. cbn [fst snd]. exact E2.
    + eapply gives_after; [exact G1|exact G2].
Qed.

Lemma uint32_add : forall a b, add32 (uint32 a) (uint32 b) = uint32 (a + b).
Proof.
  intros a b. unfold add32, uint32. rewrite (Z.add_mod a b) by lia.
  pose proof (Z.mod_pos_bound a (2 ^ 32)). pose proof (Z.mod_pos_bound b (2 ^ 32)).
  rewrite <- Z2N.inj_add by lia. change (2 ^ 32) with (Z.to_N (2 ^ 32)) at 1. rewrite <- Z2N.inj_mod by lia. reflexivity.
Qed.

Lemma sums : forall pieces z, fold_left (fun s p => add32 s (uint32 (snd p))) pieces (uint32 z) = uint32 (z + total pieces).
Proof.
  induction pieces as [|[p len] pieces IH]; intros z; cbn [fold_left total fold_right snd]; [rewrite Z.add_0_r; auto|].
  rewrite uint32_add, IH. unfold total. f_equal. lia.
Qed.

(** ** MurmurHashAligned2 *)
Lemma or_bytes_gives : forall m data (P : N * N -> Prop) n, n < 4 ->
  (forall i, i < n -> P (data + i, 1)) ->
  gives (or_bytes m data n 0) (little_endian (bytes_from m data (N.to_nat n))) P.
Proof.
  intros m data P n L HP.
  pose proof (byte_at_lt m data) as B0. pose proof (byte_at_lt m (data + 1)) as B1. pose proof (byte_at_lt m (data + 2)) as B2.
  assert (R0 : 0 < n -> gives (read8 m data) (byte_at m data) P) by (intros; apply gives_read8; rewrite <- (N.add_0_r data); apply HP; auto).
  assert (C : n = 0 \/ n = 1 \/ n = 2 \/ n = 3) by lia. destruct C as [->|[->|[->| ->]]]; cbn [or_bytes].
  - apply gives_yield.
  - eapply gives_after; [apply R0; lia|]. cbn beta. rewrite N.lor_0_l. change (N.to_nat 1) with 1%nat. cbn [bytes_from little_endian].
    rewrite N.mul_0_r, N.add_0_r. apply gives_yield.
  - unfold or2. eapply gives_after; [apply gives_read8, HP; lia|]. cbn beta. rewrite N.lor_0_l. unfold or1.
    eapply gives_after; [apply R0; lia|]. cbn beta. rewrite N.lor_comm.
    change 8 with (N.of_nat (length [byte_at m data]) * 8). replace (byte_at m data) with (little_endian [byte_at m data]) at 1 by (cbn [little_endian]; lia).
    rewrite lor_le; auto; try (cbn; lia); [apply gives_yield|]. constructor; auto; constructor.
  - unfold or3. eapply gives_after; [apply gives_read8, HP; lia|]. cbn beta. rewrite N.lor_0_l. unfold or2.
    eapply gives_after; [apply gives_read8, HP; lia|]. cbn beta. unfold or1.
    eapply gives_after; [apply R0; lia|]. cbn beta.
    rewrite N.lor_comm, (N.lor_comm (shl32 (byte_at m (data + 2)) 16)), N.lor_assoc.
    change 8 with (N.of_nat (length [byte_at m data]) * 8). replace (byte_at m data) with (little_endian [byte_at m data]) at 1 by (cbn [little_endian]; lia).
    rewrite lor_le; auto; try (cbn; lia). 2: constructor; auto; constructor.
    cbn [app]. change 16 with (N.of_nat (length [byte_at m data; byte_at m (data + 1)]) * 8).
    rewrite lor_le; auto; try (cbn; lia). 2: repeat (constructor; auto).
    cbn [app]. replace [byte_at m data; byte_at m (data + 1); byte_at m (data + 2)] with (bytes_from m data (N.to_nat 3)); [apply gives_yield|].
    change (N.to_nat 3) with 3%nat. cbn [bytes_from]. replace (data + 1 + 1) with (data + 2) by lia. auto.
Qed.

Lemma shiftr_le : forall a b, bytes a -> N.shiftr (little_endian (a ++ b)) (8 * N.of_nat (length a)) = little_endian b.
Proof.
  intros a b B. rewrite N.shiftr_div_pow2, <- pow256, le_app. pose proof (le_lt a B).
  assert (256 ^ N.of_nat (length a) <> 0) by (apply N.pow_nonzero; lia).
  rewrite (N.mul_comm (256 ^ _)), N.div_add by auto. rewrite N.div_small by auto. lia.
Qed.

Lemma shl32_le : forall a b, bytes a -> (length a + length b = 4)%nat ->
  shl32 (little_endian (a ++ b)) (8 * N.of_nat (length b)) = 2 ^ (8 * N.of_nat (length b)) * little_endian a.
Proof.
  intros a b B L. unfold shl32. rewrite N.shiftl_mul_pow2, le_app, pow256. pose proof (le_lt a B) as X. rewrite pow256 in X.
  replace ((little_endian a + 2 ^ (8 * N.of_nat (length a)) * little_endian b) * 2 ^ (8 * N.of_nat (length b)))
    with (2 ^ (8 * N.of_nat (length b)) * little_endian a + little_endian b * (2 ^ (8 * N.of_nat (length a)) * 2 ^ (8 * N.of_nat (length b)))) by lia.
  assert (Y : 2 ^ (8 * N.of_nat (length a)) * 2 ^ (8 * N.of_nat (length b)) = 2 ^ 32) by (rewrite <- N.pow_add_r; f_equal; lia).
  rewrite Y, N.mod_add by lia. apply N.mod_small. rewrite <- Y. rewrite (N.mul_comm (2 ^ (8 * N.of_nat (length a)))).
  apply N.mul_lt_mono_pos_l; auto. apply N.neq_0_lt_0, N.pow_nonzero. lia.
Qed.

(** [p] in the register, then [a] from the next word. *)
Lemma join_le : forall t p a b, bytes p -> bytes a -> (length p + length a = 4)%nat -> length b = length p ->
  N.shiftr t (8 * N.of_nat (length a)) = little_endian p ->
  N.lor (N.shiftr t (8 * N.of_nat (length a))) (shl32 (little_endian (a ++ b)) (8 * N.of_nat (length p))) = little_endian (p ++ a).
Proof.
  intros t p a b Bp Ba L Lb ->. rewrite <- Lb. rewrite shl32_le by (auto; lia). rewrite Lb.
  replace (2 ^ (8 * N.of_nat (length p)) * little_endian a) with (N.shiftl (little_endian a) (8 * N.of_nat (length p)))
    by (rewrite N.shiftl_mul_pow2; lia).
  rewrite lor_shifted by (rewrite <- pow256; apply le_lt; auto). rewrite le_app, pow256. reflexivity.
Qed.

Lemma loop_aligned_gives : forall m (P : N * N -> Prop) a, big_endian m = false ->
  forall fuel data len h t p, (Z.to_nat len < fuel)%nat -> (0 <= len)%Z -> (length p + a = 4)%nat -> bytes p ->
  N.shiftr t (8 * N.of_nat a) = little_endian p ->
  (forall j, (Z.of_N (4 * j + 4) <= len)%Z -> P (data + 4 * j, 4)) ->
  exists q h' t' p', (0 <= len - Z.of_N (4 * q) < 4)%Z /\ length p' = length p /\ bytes p' /\
    N.shiftr t' (8 * N.of_nat a) = little_endian p' /\
    eat2 h (p ++ bytes_from m data (Z.to_nat len)) = eat2 h' (p' ++ bytes_from m (data + 4 * q) (Z.to_nat (len - Z.of_N (4 * q)))) /\
    gives (loop_aligned fuel m (8 * N.of_nat (length p)) (8 * N.of_nat a) data len h t)
      (data + 4 * q, (len - Z.of_N (4 * q))%Z, h', t') P.
Proof.
  intros m P a Le. induction fuel as [|fuel IH]; intros data len h t p F L0 Lp Bp Et HP; [lia|]. cbn [loop_aligned].
  destruct (Z.leb_spec 4 len) as [L|L].
  - pose proof (bytes_from_app m a (length p) data) as Ew. replace (a + length p)%nat with 4%nat in Ew by lia.
    assert (La : length (bytes_from m data a) = a) by apply bytes_from_length.
    assert (Lq : length (bytes_from m (data + N.of_nat a) (length p)) = length p) by apply bytes_from_length.
    destruct (IH (data + 4) (len - 4)%Z (block2 h (p ++ bytes_from m data a)) (little_endian (bytes_from m data 4))
      (bytes_from m (data + N.of_nat a) (length p))) as (q & h' & t' & p' & A & Lp' & Bp' & Et' & E & G).
    { lia. } { lia. } { lia. } { apply bytes_from_bytes. }
    { pose proof (shiftr_le (bytes_from m data a) (bytes_from m (data + N.of_nat a) (length p)) (bytes_from_bytes m a data)) as X.
      rewrite La in X. rewrite Ew. exact X. }
    { intros j J. replace (data + 4 + 4 * j) with (data + 4 * (j + 1)) by lia. apply HP. lia. }
    exists (q + 1), h', t', p'. replace (data + 4 * (q + 1)) with (data + 4 + 4 * q) by lia.
    replace (len - Z.of_N (4 * (q + 1)))%Z with (len - 4 - Z.of_N (4 * q))%Z by lia.
    split; [lia|]. split; [lia|]. split; auto. split; auto. split.
    + rewrite <- E, bytes_from_4, Ew by auto. rewrite <- !app_assoc, app_assoc. rewrite eat_block by (rewrite ?app_length; lia).
      f_equal.
    + eapply gives_after; [apply gives_read32; specialize (HP 0); rewrite N.mul_0_r, N.add_0_r in HP; apply HP; lia|].
      cbv zeta. rewrite word_little by auto. rewrite Lq in G. rewrite Ew at 1.
      pose proof (join_le t p (bytes_from m data a) (bytes_from m (data + N.of_nat a) (length p)) Bp (bytes_from_bytes m a data)) as X.
      rewrite La in X. rewrite X by (auto; lia). exact G.
  - exists 0, h, t, p. cbn [N.mul Z.of_N]. rewrite N.add_0_r, Z.sub_0_r. split; [lia|]. repeat (split; auto). apply gives_yield.
Qed.

Lemma MurmurHashAligned2_gives : forall m key len seed (P : N * N -> Prop), big_endian m = false ->
  (forall j n, (Z.of_N (j + n) <= len)%Z -> 0 < n -> (key + j) mod n = 0 -> P (key + j, n)) ->
  gives (MurmurHashAligned2 m key len seed) (digest2 seed len (key_at m key len)) P.
Proof.
  intros m key len seed P Le HP. unfold MurmurHashAligned2, digest2, key_at. cbv zeta.
  set (h0 := N.lxor seed (uint32 len)). pose proof (N.mod_lt key 4 ltac:(lia)) as La. remember (key mod 4) as a eqn:Ea.
  assert (H1 : forall j, (Z.of_N (j + 1) <= len)%Z -> P (key + j, 1)) by (intros j J; apply HP; [lia|lia|apply N.mod_1_r]).
  destruct (N.eqb_spec a 0) as [A0|A0]; cbn [negb andb].
  - destruct (loop2_gives m P Le (rounds len) key len h0) as (q & h' & A & B & E & G).
    { unfold rounds; lia. } { intros j J. apply HP; lia. }
    rewrite E. eapply gives_after; [exact G|]. cbn beta iota.
    eapply gives_after; [apply tail2_gives; auto|apply gives_yield].
    intros i I. rewrite <- N.add_assoc. apply H1. lia.
  - destruct (Z.leb_spec 4 len) as [L|L].
    2: { unfold rounds. cbn [loop2]. destruct (Z.leb_spec 4 len); [lia|]. rewrite eat_short by (rewrite bytes_from_length; lia).
      eapply gives_after; [apply gives_yield|]. cbn beta iota.
      eapply gives_after; [apply tail2_gives; [lia|]|apply gives_yield]. intros i I. apply H1. lia. }
    eapply gives_after; [apply or_bytes_gives; [lia|]|]. { intros i I. apply H1. lia. }
    cbn beta. set (p := bytes_from m key (N.to_nat (4 - a))).
    assert (Lp : length p = N.to_nat (4 - a)) by apply bytes_from_length. assert (Bp : bytes p) by apply bytes_from_bytes.
    set (t := shl32 (little_endian p) (8 * a)).
    assert (Et : N.shiftr t (8 * N.of_nat (N.to_nat a)) = little_endian p).
    { unfold t. rewrite N2Nat.id. rewrite shl32_small; try lia.
      - rewrite N.shiftr_shiftl_l by lia. rewrite N.sub_diag, N.shiftl_0_r. auto.
      - pose proof (le_lt p Bp) as X. rewrite pow256, Lp, N2Nat.id in X. replace (32 - 8 * a) with (8 * (4 - a)) by lia. auto. }
    destruct (loop_aligned_gives m P (N.to_nat a) Le (rounds len) (key + (4 - a)) (len - Z.of_N (4 - a))%Z h0 t p)
      as (q & h' & t' & p' & A & Lp' & Bp' & Et' & E & G); auto.
    { unfold rounds. lia. } { lia. } { lia. }
    { intros j J. rewrite <- N.add_assoc. apply HP; lia. }
    rewrite Lp, !N2Nat.id in G.
    replace (bytes_from m key (Z.to_nat len)) with (p ++ bytes_from m (key + (4 - a)) (Z.to_nat (len - Z.of_N (4 - a)))).
    2: { replace (Z.to_nat len) with (N.to_nat (4 - a) + Z.to_nat (len - Z.of_N (4 - a)))%nat by lia. rewrite bytes_from_app, N2Nat.id. auto. }
    rewrite E. eapply gives_after; [exact G|]. cbn beta iota. clear E G.
    set (data := key + (4 - a) + 4 * q). set (l := (len - Z.of_N (4 - a) - Z.of_N (4 * q))%Z) in *.
    assert (HPd : forall i, (Z.of_N i < l)%Z -> P (data + i, 1)). { intros i I. unfold data. rewrite <- !N.add_assoc. apply H1. unfold l in I. lia. }
    rewrite N2Nat.id in Et'. clearbody data l.
    destruct (Z.leb_spec (Z.of_N a) l) as [Al|Al].
    + pose proof (bytes_from_app m (N.to_nat a) (Z.to_nat (l - Z.of_N a)) data) as Eb. rewrite N2Nat.id in Eb.
      replace (N.to_nat a + Z.to_nat (l - Z.of_N a))%nat with (Z.to_nat l) in Eb by lia.
      assert (Lb : length (bytes_from m data (N.to_nat a)) = N.to_nat a) by apply bytes_from_length.
      rewrite Eb, app_assoc, eat_block by (rewrite ?app_length; lia). rewrite eat_short by (rewrite bytes_from_length; lia).
      eapply gives_after; [|apply gives_yield].
      eapply gives_after; [apply or_bytes_gives; [lia|]|]. { intros i I. apply HPd. lia. }
      cbn beta zeta.
      replace (N.lor (N.shiftr t' (8 * a)) (shl32 (little_endian (bytes_from m data (N.to_nat a))) (8 * (4 - a))))
        with (little_endian (p' ++ bytes_from m data (N.to_nat a))).
      2: { rewrite Et'. rewrite le_app, pow256, Lp', Lp, N2Nat.id. rewrite shl32_small; try lia.
        - rewrite lor_shifted; auto. pose proof (le_lt p' Bp') as X. rewrite pow256, Lp', Lp, N2Nat.id in X. auto.
        - pose proof (le_lt _ (bytes_from_bytes m (N.to_nat a) data)) as X. rewrite pow256, bytes_from_length, N2Nat.id in X.
          replace (32 - 8 * (4 - a)) with (8 * a) by lia. auto. }
      apply tail2_gives; [lia|]. intros i I. rewrite <- N.add_assoc. apply HPd. lia.
    + rewrite eat_short by (rewrite app_length, bytes_from_length; lia).
      eapply gives_after; [|apply gives_yield].
      assert (Hd : gives (or_bytes m data (Z.to_N l) 0) (little_endian (bytes_from m data (N.to_nat (Z.to_N l)))) P).
      { apply or_bytes_gives; [lia|]. intros i I. apply HPd. lia. }
      assert (Hr : rest2 h' (p' ++ bytes_from m data (Z.to_nat l)) =
        mul32 (N.lxor h' (N.lor (N.shiftr t' (8 * a)) (shl32 (little_endian (bytes_from m data (N.to_nat (Z.to_N l)))) (8 * (4 - a))))) m2).
      { assert (Hn : p' <> []) by (destruct p'; [cbn in Lp'; lia|discriminate]).
        unfold rest2. destruct (p' ++ bytes_from m data (Z.to_nat l)) as [|x y] eqn:Ex; [destruct p'; [congruence|discriminate]|]. rewrite <- Ex.
        replace (N.to_nat (Z.to_N l)) with (Z.to_nat l) by lia.
        f_equal. f_equal. rewrite Et', le_app, pow256, Lp', Lp, N2Nat.id. rewrite shl32_small; try lia.
        - rewrite lor_shifted; auto. pose proof (le_lt p' Bp') as X. rewrite pow256, Lp', Lp, N2Nat.id in X. auto.
        - pose proof (le_lt _ (bytes_from_bytes m (Z.to_nat l) data)) as X. rewrite pow256, bytes_from_length in X.
          eapply N.lt_le_trans; [exact X|]. apply N.pow_le_mono_r; lia. }
      rewrite Hr. assert (Cl : (l = 0 \/ l = 1 \/ l = 2)%Z) by lia.
      destruct Cl as [ -> |[ -> | -> ]]; (eapply gives_after; [exact Hd|apply gives_yield]).
Qed.

(** ** MurmurHash64B *)
Definition block64b (h : N * N) (b : list N) : N * N :=
  (mix2 (fst h) (little_endian (firstn 4 b)), mix2 (snd h) (little_endian (skipn 4 b))).
Notation eat64b := (eat 8 block64b).
Definition rest64b (h : N * N) (t : list N) : N * N :=
  if Nat.leb 4 (length t) then (mix2 (fst h) (little_endian (firstn 4 t)), rest2 (snd h) (skipn 4 t))
  else (fst h, rest2 (snd h) t).
Definition digest64b (seed : N) (len : Z) (bs : list N) : N :=
  let '(h, t) := eat64b (N.lxor (seed mod 2 ^ 32) (uint32 len), N.shiftr seed 32) bs in
  let '(h1, h2) := rest64b h t in final64b h1 h2.

Lemma loop64b_gives : forall m (P : N * N -> Prop), big_endian m = false ->
  forall fuel data len h1 h2, (Z.to_nat len < fuel)%nat ->
  (forall j, (Z.of_N (4 * j + 4) <= len)%Z -> P (data + 4 * j, 4)) ->
  exists q h1' h2', (len - Z.of_N (8 * q) < 8)%Z /\ (8 * Z.of_N q <= Z.max 0 len)%Z /\
    eat64b (h1, h2) (bytes_from m data (Z.to_nat len)) = ((h1', h2'), bytes_from m (data + 8 * q) (Z.to_nat (len - Z.of_N (8 * q)))) /\
    gives (loop64b fuel m data len h1 h2) (data + 8 * q, (len - Z.of_N (8 * q))%Z, h1', h2') P.
Proof.
  intros m P Le. induction fuel as [|fuel IH]; intros data len h1 h2 F HP; [lia|]. cbn [loop64b].
  destruct (Z.leb_spec 8 len) as [L|L].
  - pose proof (bytes_from_app m 4 4 data) as E8. change (4 + 4)%nat with 8%nat in E8. change (N.of_nat 4) with 4 in E8.
    destruct (IH (data + 8) (len - 8)%Z (mix2 h1 (little_endian (bytes_from m data 4))) (mix2 h2 (little_endian (bytes_from m (data + 4) 4))))
      as (q & h1' & h2' & A & B & E & G); [lia| |].
    { intros j J. replace (data + 8 + 4 * j) with (data + 4 * (j + 2)) by lia. apply HP. lia. }
    exists (q + 1), h1', h2'. split; [lia|]. split; [lia|].
    replace (Z.to_nat len) with (8 + Z.to_nat (len - 8))%nat by lia. rewrite bytes_from_app. change (N.of_nat 8) with 8.
    rewrite eat_block by (try apply bytes_from_length; lia). rewrite E8. unfold block64b at 2. cbn [fst snd].
    rewrite firstn_app, skipn_app, bytes_from_length, Nat.sub_diag, firstn_O, skipn_O, app_nil_r.
    rewrite firstn_all2, skipn_all2 by (rewrite bytes_from_length; lia). cbn [app]. rewrite E.
    replace (data + 8 * (q + 1)) with (data + 8 + 8 * q) by lia.
    replace (len - Z.of_N (8 * (q + 1)))%Z with (len - 8 - Z.of_N (8 * q))%Z by lia. split; auto.
    eapply gives_after; [apply gives_read32; specialize (HP 0); rewrite N.mul_0_r, N.add_0_r in HP; apply HP; lia|].
    eapply gives_after; [apply gives_read32; apply (HP 1); lia|].
    rewrite !word_little by auto. exact G.
  - exists 0, h1, h2. cbn [N.mul Z.of_N]. rewrite N.add_0_r, Z.sub_0_r. split; [lia|]. split; [lia|].
    split; [apply eat_short; rewrite bytes_from_length; lia|apply gives_yield].
Qed.

Lemma MurmurHash64B_gives : forall m key len seed (P : N * N -> Prop), big_endian m = false ->
  (forall j, (Z.of_N (4 * j + 4) <= len)%Z -> P (key + 4 * j, 4)) ->
  (forall i, (Z.of_N i < len)%Z -> P (key + i, 1)) ->
  gives (MurmurHash64B m key len seed) (digest64b seed len (key_at m key len)) P.
Proof.
  intros m key len seed P Le H4 H1. unfold MurmurHash64B, digest64b, key_at.
  destruct (loop64b_gives m P Le (rounds len) key len (N.lxor (seed mod 2 ^ 32) (uint32 len)) (N.shiftr seed 32))
    as (q & h1 & h2 & A & B & E & G); [unfold rounds; lia|auto|].
  rewrite E. eapply gives_after; [exact G|]. cbn beta iota. clear E G.
  set (l := (len - Z.of_N (8 * q))%Z) in *. set (p := key + 8 * q) in *.
  assert (HP1 : forall i, (Z.of_N i < l)%Z -> P (p + i, 1)) by (intros i I; unfold p; rewrite <- N.add_assoc; apply H1; unfold l in I; lia).
  assert (HP4 : (4 <= l)%Z -> P (p, 4)).
  { intros I. unfold p. replace (key + 8 * q) with (key + 4 * (2 * q)) by lia. apply H4. unfold l in I. lia. }
  clearbody l p. unfold rest64b. rewrite bytes_from_length. cbn [fst snd].
  destruct (Z.leb_spec 4 l) as [L|L].
  - replace (Nat.leb 4 (Z.to_nat l)) with true by (symmetry; apply Nat.leb_le; lia).
    rewrite bytes_from_4 by auto.
    rewrite firstn_app, skipn_app, bytes_from_length, Nat.sub_diag, firstn_O, skipn_O, app_nil_r.
    rewrite firstn_all2, skipn_all2 by (rewrite bytes_from_length; lia). cbn [app].
    eapply gives_after. { eapply gives_after; [apply gives_read32; auto|]. rewrite word_little by auto. apply gives_yield. }
    cbn beta iota. eapply gives_after; [apply tail2_gives; [lia|]|apply gives_yield].
    intros i I. rewrite <- N.add_assoc. apply HP1. lia.
  - replace (Nat.leb 4 (Z.to_nat l)) with false by (symmetry; apply Nat.leb_gt; lia).
    eapply gives_after; [apply gives_yield|]. cbn beta iota.
    eapply gives_after; [apply tail2_gives; [lia|]|apply gives_yield]. intros i I. apply HP1. lia.
Qed.

(** ** MurmurHash3 *)
Definition block3_32 (h : N) (b : list N) : N := step32 h (little_endian b).
Notation eat3_32 := (eat 4 block3_32).
Definition rest3_32 (h : N) (t : list N) : N :=
  match t with [] => h | _ => N.lxor h (scramble32 (little_endian t) c32_1 15 c32_2) end.
Definition digest3_32 (seed : N) (len : Z) (bs : list N) : N :=
  let '(h, t) := eat3_32 seed bs in fmix32 (N.lxor (rest3_32 h t) (uint32 len)).

Lemma eat_exact : forall St w step m, (0 < w)%nat -> forall q data (s : St) t,
  (length t < w)%nat ->
  eat w step s (bytes_from m data (w * q) ++ t) =
    (fold_left (fun s j => step s (bytes_from m (data + N.of_nat (w * j)) w)) (seq 0 q) s, t).
Proof.
  intros St w step m W. induction q as [|q IH]; intros data s t L.
  - rewrite Nat.mul_0_r. cbn. apply eat_short; auto.
  - replace (w * S q)%nat with (w + w * q)%nat by lia. rewrite bytes_from_app, <- app_assoc.
    rewrite eat_block by (try apply bytes_from_length; lia). rewrite IH by auto. cbn [seq fold_left].
    rewrite Nat.mul_0_r, N.add_0_r. f_equal. rewrite <- seq_shift.
    assert (X : forall l s, fold_left (fun s j => step s (bytes_from m (data + N.of_nat w + N.of_nat (w * j)) w)) l s =
      fold_left (fun s j => step s (bytes_from m (data + N.of_nat (w * j)) w)) (map S l) s).
    { induction l as [|j l IHl]; intros s0; cbn [map fold_left]; auto. rewrite <- IHl.
      replace (data + N.of_nat (w * S j)) with (data + N.of_nat w + N.of_nat (w * j)) by lia. auto. }
    apply X.
Qed.

Lemma eat_key : forall St w step m data len (s : St), (0 < w)%nat -> (0 <= len)%Z ->
  let q := (Z.to_nat len / w)%nat in
  eat w step s (key_at m data len) =
    (fold_left (fun s j => step s (bytes_from m (data + N.of_nat (w * j)) w)) (seq 0 q) s,
     bytes_from m (data + N.of_nat (w * q)) (Z.to_nat len mod w)).
Proof.
  intros St w step m data len s W L q. unfold key_at.
  rewrite (Nat.div_mod (Z.to_nat len) w) at 1 by lia. rewrite bytes_from_app. apply eat_exact; auto.
  rewrite bytes_from_length. apply Nat.mod_upper_bound. lia.
Qed.

Lemma loop3_32_gives : forall m (P : N * N -> Prop) data n, big_endian m = false ->
  (forall j, (j < n)%nat -> P (data + N.of_nat (4 * j), 4)) ->
  forall k fuel h, (k < fuel)%nat -> (k <= n)%nat ->
  gives (loop3_32 fuel m (data + N.of_nat (4 * n)) (- Z.of_nat k) h)
    (fold_left (fun s j => block3_32 s (bytes_from m (data + N.of_nat (4 * j)) 4)) (seq (n - k) k) h) P.
Proof.
  intros m P data n Le HP. induction k as [|k IH]; intros [|fuel] h F K; try lia; cbn [loop3_32].
  - cbn. apply gives_yield.
  - destruct (Z.eqb_spec (- Z.of_nat (S k)) 0); [lia|]. destruct (Z.ltb_spec 0 (- Z.of_nat (S k))); [lia|].
    replace (index (data + N.of_nat (4 * n)) 4 (- Z.of_nat (S k))) with (data + N.of_nat (4 * (n - S k))) by (unfold index; lia).
    eapply gives_after; [apply gives_read32, HP; lia|]. rewrite word_little by auto.
    replace (- Z.of_nat (S k) + 1)%Z with (- Z.of_nat k)%Z by lia.
    cbn [seq fold_left]. replace (S (n - S k)) with (n - k)%nat by lia. apply IH; lia.
Qed.

Lemma quot_nat : forall len w, (0 <= len)%Z -> (0 < w)%nat -> Z.quot len (Z.of_nat w) = Z.of_nat (Z.to_nat len / w).
Proof.
  intros len w L W. rewrite Z.quot_div_nonneg by lia. rewrite Nat2Z.inj_div, Z2Nat.id by lia. reflexivity.
Qed.
Lemma mod_nat : forall len w, (0 <= len)%Z -> (0 < w)%nat -> Z.to_nat (len mod Z.of_nat w) = (Z.to_nat len mod w)%nat.
Proof.
  intros len w L W. rewrite <- (Z2Nat.id len) at 1 by lia. rewrite <- Nat2Z.inj_mod, Nat2Z.id. reflexivity.
Qed.

Lemma div_room : forall n w j i, (0 < w)%nat -> (j < n / w)%nat -> (i <= w)%nat -> (w * j + i <= n)%nat.
Proof. intros n w j i W J I. pose proof (Nat.div_mod n w ltac:(lia)). nia. Qed.
Lemma mod_room : forall n w i, (0 < w)%nat -> (i < n mod w)%nat -> (w * (n / w) + i < n)%nat.
Proof. intros n w i W I. pose proof (Nat.div_mod n w ltac:(lia)). lia. Qed.

Lemma MurmurHash3_x86_32_gives : forall m key len seed (P : N * N -> Prop), big_endian m = false -> (0 <= len)%Z ->
  (forall i n, (Z.of_N (i + n) <= len)%Z -> 0 < n -> P (key + i, n)) ->
  gives (MurmurHash3_x86_32 m key len seed) (digest3_32 seed len (key_at m key len)) P.
Proof.
  intros m key len seed P Le L HP. unfold MurmurHash3_x86_32, digest3_32. cbv zeta.
  rewrite eat_key by (auto; lia). change 4%Z with (Z.of_nat 4). rewrite quot_nat, mod_nat by lia.
  set (q := (Z.to_nat len / 4)%nat). replace (index key (Z.of_nat 4) (Z.of_nat q)) with (key + N.of_nat (4 * q)) by (unfold index; lia).
  eapply gives_after.
  { replace q with (q - 0)%nat at 2 by lia. pose proof (loop3_32_gives m P key q Le) as X.
    specialize (X ltac:(intros j J; apply HP; [pose proof (div_room (Z.to_nat len) 4 j 4 ltac:(lia) J ltac:(lia)); lia|lia]) q (rounds len) seed).
    replace (- Z.of_nat (q - 0))%Z with (- Z.of_nat q)%Z by lia. apply X; [|lia].
    unfold rounds. pose proof (Nat.div_le_upper_bound (Z.to_nat len) 4 (Z.to_nat len) ltac:(lia) ltac:(lia)). unfold q. lia. }
  rewrite Nat.sub_diag. cbn beta iota zeta.
  set (h := fold_left _ _ _). set (r := (Z.to_nat len mod 4)%nat). assert (Lr : (r < 4)%nat) by (apply Nat.mod_upper_bound; lia).
  eapply gives_after.
  { apply gather32; [lia|]. intros i I. rewrite <- N.add_assoc. apply HP; [|lia]. pose proof (mod_room (Z.to_nat len) 4 i ltac:(lia) I). fold q in H. lia. }
  rewrite N.lxor_0_l. unfold rest3_32. set (t := bytes_from m (key + N.of_nat (4 * q)) r). assert (Lt : length t = r) by apply bytes_from_length.
  clearbody t. destruct t as [|b t]; cbn [length] in Lt; rewrite <- Lt; apply gives_yield.
Qed.

Definition word4 (b : list N) (i : nat) : N := little_endian (firstn 4 (skipn (4 * i) b)).
Definition block3_128 (h : four) (b : list N) : four := step128 h (word4 b 0, word4 b 1, word4 b 2, word4 b 3).
Notation eat3_128 := (eat 16 block3_128).
Definition rest3_128 (h : four) (t : list N) : four :=
  let '(h1, h2, h3, h4) := h in
  let n := length t in
  (if Nat.ltb 0 n then N.lxor h1 (scramble32 (word4 t 0) c1_128 15 c2_128) else h1,
   if Nat.ltb 4 n then N.lxor h2 (scramble32 (word4 t 1) c2_128 16 c3_128) else h2,
   if Nat.ltb 8 n then N.lxor h3 (scramble32 (word4 t 2) c3_128 17 c4_128) else h3,
   if Nat.ltb 12 n then N.lxor h4 (scramble32 (word4 t 3) c4_128 18 c1_128) else h4).
Definition digest3_128 (seed : N) (len : Z) (bs : list N) : four :=
  let '(h, t) := eat3_128 (seed, seed, seed, seed) bs in final128 (rest3_128 h t) (uint32 len).

Lemma firstn_bytes : forall m n k p, firstn k (bytes_from m p n) = bytes_from m p (Nat.min k n).
Proof.
  induction n as [|n IH]; intros k p; [destruct k; reflexivity|]. destruct k as [|k]; [reflexivity|].
  cbn [Nat.min bytes_from firstn]. rewrite IH. reflexivity.
Qed.
Lemma skipn_bytes : forall m n k p, skipn k (bytes_from m p n) = bytes_from m (p + N.of_nat k) (n - k).
Proof.
  induction n as [|n IH]; intros k p; [destruct k; reflexivity|]. destruct k as [|k]; [cbn [skipn]; rewrite N.add_0_r; reflexivity|].
  cbn [bytes_from skipn Nat.sub]. rewrite IH. f_equal. lia.
Qed.
Lemma word4_bytes : forall m p n i, word4 (bytes_from m p n) i = little_endian (bytes_from m (p + N.of_nat (4 * i)) (Nat.min 4 (n - 4 * i))).
Proof. intros. unfold word4. rewrite skipn_bytes, firstn_bytes. reflexivity. Qed.

Lemma loop3_128_gives : forall m (P : N * N -> Prop) data n, big_endian m = false ->
  (forall j i, (j < n)%nat -> (i < 4)%nat -> P (data + N.of_nat (16 * j + 4 * i), 4)) ->
  forall k fuel h, (k < fuel)%nat -> (k <= n)%nat ->
  gives (loop3_128 fuel m (data + N.of_nat (16 * n)) (- Z.of_nat k) h)
    (fold_left (fun s j => block3_128 s (bytes_from m (data + N.of_nat (16 * j)) 16)) (seq (n - k) k) h) P.
Proof.
  intros m P data n Le HP. induction k as [|k IH]; intros [|fuel] h F K; try lia; cbn [loop3_128].
  - cbn. apply gives_yield.
  - destruct (Z.eqb_spec (- Z.of_nat (S k)) 0); [lia|]. destruct (Z.ltb_spec 0 (- Z.of_nat (S k))); [lia|].
    replace (index (data + N.of_nat (16 * n)) 4 (- Z.of_nat (S k) * 4 + 0)) with (data + N.of_nat (16 * (n - S k) + 4 * 0)) by (unfold index; lia).
    replace (index (data + N.of_nat (16 * n)) 4 (- Z.of_nat (S k) * 4 + 1)) with (data + N.of_nat (16 * (n - S k) + 4 * 1)) by (unfold index; lia).
    replace (index (data + N.of_nat (16 * n)) 4 (- Z.of_nat (S k) * 4 + 2)) with (data + N.of_nat (16 * (n - S k) + 4 * 2)) by (unfold index; lia).
    replace (index (data + N.of_nat (16 * n)) 4 (- Z.of_nat (S k) * 4 + 3)) with (data + N.of_nat (16 * (n - S k) + 4 * 3)) by (unfold index; lia).
    do 4 (eapply gives_after; [apply gives_read32, HP; lia|]; rewrite word_little by auto).
    replace (- Z.of_nat (S k) + 1)%Z with (- Z.of_nat k)%Z by lia.
    cbn [seq fold_left]. replace (S (n - S k)) with (n - k)%nat by lia.
    match goal with |- gives _ (fold_left _ _ ?s) _ =>
      replace s with (step128 h (word4 (bytes_from m (data + N.of_nat (16 * (n - S k))) 16) 0, word4 (bytes_from m (data + N.of_nat (16 * (n - S k))) 16) 1,
        word4 (bytes_from m (data + N.of_nat (16 * (n - S k))) 16) 2, word4 (bytes_from m (data + N.of_nat (16 * (n - S k))) 16) 3)) by reflexivity end.
    rewrite !word4_bytes. rewrite <- !N.add_assoc, <- !Nat2N.inj_add. apply IH; lia.
Qed.

Lemma MurmurHash3_x86_128_gives : forall m key len seed (P : N * N -> Prop), big_endian m = false -> (0 <= len)%Z ->
  (forall i n, (Z.of_N (i + n) <= len)%Z -> 0 < n -> P (key + i, n)) ->
  gives (MurmurHash3_x86_128 m key len seed) (digest3_128 seed len (key_at m key len)) P.
Proof.
  intros m key len seed P Le L HP. unfold MurmurHash3_x86_128, digest3_128. cbv zeta.
  rewrite eat_key by (auto; lia). change 16%Z with (Z.of_nat 16). rewrite quot_nat, mod_nat by lia.
  set (q := (Z.to_nat len / 16)%nat). replace (index key (Z.of_nat 16) (Z.of_nat q)) with (key + N.of_nat (16 * q)) by (unfold index; lia).
  eapply gives_after.
  { pose proof (loop3_128_gives m P key q Le) as X.
    specialize (X ltac:(intros j i J I; apply HP; [pose proof (div_room (Z.to_nat len) 16 j 16 ltac:(lia) J ltac:(lia)); lia|lia]) q (rounds len) (seed, seed, seed, seed)).
    apply X; [|lia].
    unfold rounds. pose proof (Nat.div_le_upper_bound (Z.to_nat len) 16 (Z.to_nat len) ltac:(lia) ltac:(lia)). unfold q. lia. }
  rewrite Nat.sub_diag. cbn beta iota zeta.
  set (h := fold_left _ _ _). set (r := (Z.to_nat len mod 16)%nat). assert (Lr : (r < 16)%nat) by (apply Nat.mod_upper_bound; lia).
  destruct h as [[[h1 h2] h3] h4].
  assert (HR : forall o i, (o + i < r)%nat -> P (key + N.of_nat (16 * q) + N.of_nat o + N.of_nat i, 1)).
  { intros o i I. rewrite <- !N.add_assoc. apply HP; [|lia]. pose proof (mod_room (Z.to_nat len) 16 (o + i) ltac:(lia) I). fold q in H. lia. }
  set (p := key + N.of_nat (16 * q)) in *. clearbody p.
  eapply gives_after. { apply gather32; [lia|]. intros i I. apply (HR 12%nat). lia. }
  eapply gives_after. { apply gather32; [lia|]. intros i I. apply (HR 8%nat). lia. }
  eapply gives_after. { apply gather32; [lia|]. intros i I. apply (HR 4%nat). lia. }
  eapply gives_after. { apply gather32; [lia|]. intros i I. specialize (HR 0%nat i). rewrite N.add_0_r in HR. apply HR. lia. }
  rewrite !N.lxor_0_l. cbn beta. unfold rest3_128. rewrite bytes_from_length, !word4_bytes.
  change (4 * 0)%nat with 0%nat. change (4 * 1)%nat with 4%nat. change (4 * 2)%nat with 8%nat. change (4 * 3)%nat with 12%nat.
  rewrite Nat.sub_0_r, N.add_0_r. replace (Nat.min 4 (r - 12)) with (r - 12)%nat by lia. apply gives_yield.
Qed.

Definition word8 (b : list N) (i : nat) : N := little_endian (firstn 8 (skipn (8 * i) b)).
Definition block3_64 (h : N * N) (b : list N) : N * N := step64 h (word8 b 0, word8 b 1).
Notation eat3_64 := (eat 16 block3_64).
Definition rest3_64 (h : N * N) (t : list N) : N * N :=
  let '(h1, h2) := h in
  let n := length t in
  (if Nat.ltb 0 n then N.lxor h1 (scramble64 (word8 t 0) c1_64 31 c2_64) else h1,
   if Nat.ltb 8 n then N.lxor h2 (scramble64 (word8 t 1) c2_64 33 c1_64) else h2).
Definition digest3_64 (seed : N) (len : Z) (bs : list N) : N * N :=
  let '(h, t) := eat3_64 (seed, seed) bs in final64 (rest3_64 h t) (uint64 len).

Lemma word8_bytes : forall m p n i, word8 (bytes_from m p n) i = little_endian (bytes_from m (p + N.of_nat (8 * i)) (Nat.min 8 (n - 8 * i))).
Proof. intros. unfold word8. rewrite skipn_bytes, firstn_bytes. reflexivity. Qed.

Lemma loop3_64_gives : forall m (P : N * N -> Prop) data n, big_endian m = false ->
  (forall j i, (j < n)%nat -> (i < 2)%nat -> P (data + N.of_nat (16 * j + 8 * i), 8)) ->
  forall k fuel h, (k < fuel)%nat -> (k <= n)%nat ->
  gives (loop3_64 fuel m data (Z.of_nat n) (Z.of_nat (n - k)) h)
    (fold_left (fun s j => block3_64 s (bytes_from m (data + N.of_nat (16 * j)) 16)) (seq (n - k) k) h) P.
Proof.
  intros m P data n Le HP. induction k as [|k IH]; intros [|fuel] h F K; try lia; cbn [loop3_64].
  - destruct (Z.ltb_spec (Z.of_nat (n - 0)) (Z.of_nat n)); [lia|]. cbn. apply gives_yield.
  - destruct (Z.ltb_spec (Z.of_nat (n - S k)) (Z.of_nat n)); [|lia].
    replace (index data 8 (Z.of_nat (n - S k) * 2 + 0)) with (data + N.of_nat (16 * (n - S k) + 8 * 0)) by (unfold index; lia).
    replace (index data 8 (Z.of_nat (n - S k) * 2 + 1)) with (data + N.of_nat (16 * (n - S k) + 8 * 1)) by (unfold index; lia).
    do 2 (eapply gives_after; [apply gives_read64, HP; lia|]; rewrite word_little by auto).
    replace (Z.of_nat (n - S k) + 1)%Z with (Z.of_nat (n - k)) by lia.
    cbn [seq fold_left]. replace (S (n - S k)) with (n - k)%nat by lia.
    match goal with |- gives _ (fold_left _ _ ?s) _ =>
      replace s with (step64 h (word8 (bytes_from m (data + N.of_nat (16 * (n - S k))) 16) 0, word8 (bytes_from m (data + N.of_nat (16 * (n - S k))) 16) 1)) by reflexivity end.
    rewrite !word8_bytes. rewrite <- !N.add_assoc, <- !Nat2N.inj_add. apply IH; lia.
Qed.

Lemma MurmurHash3_x64_128_gives : forall m key len seed (P : N * N -> Prop), big_endian m = false -> (0 <= len)%Z ->
  (forall i n, (Z.of_N (i + n) <= len)%Z -> 0 < n -> P (key + i, n)) ->
  gives (MurmurHash3_x64_128 m key len seed) (digest3_64 seed len (key_at m key len)) P.
Proof.
  intros m key len seed P Le L HP. unfold MurmurHash3_x64_128, digest3_64. cbv zeta.
  rewrite eat_key by (auto; lia). change 16%Z with (Z.of_nat 16). rewrite quot_nat, mod_nat by lia.
  set (q := (Z.to_nat len / 16)%nat). replace (index key (Z.of_nat 16) (Z.of_nat q)) with (key + N.of_nat (16 * q)) by (unfold index; lia).
  eapply gives_after.
  { pose proof (loop3_64_gives m P key q Le) as X.
    specialize (X ltac:(intros j i J I; apply HP; [pose proof (div_room (Z.to_nat len) 16 j 16 ltac:(lia) J ltac:(lia)); lia|lia]) q (rounds len) (seed, seed)).
    rewrite Nat.sub_diag in X. apply X; [|lia].
    unfold rounds. pose proof (Nat.div_le_upper_bound (Z.to_nat len) 16 (Z.to_nat len) ltac:(lia) ltac:(lia)). unfold q. lia. }
  cbn beta iota zeta.
  set (h := fold_left _ _ _). set (r := (Z.to_nat len mod 16)%nat). assert (Lr : (r < 16)%nat) by (apply Nat.mod_upper_bound; lia).
  destruct h as [h1 h2].
  assert (HR : forall o i, (o + i < r)%nat -> P (key + N.of_nat (16 * q) + N.of_nat o + N.of_nat i, 1)).
  { intros o i I. rewrite <- !N.add_assoc. apply HP; [|lia]. pose proof (mod_room (Z.to_nat len) 16 (o + i) ltac:(lia) I). fold q in H. lia. }
  set (p := key + N.of_nat (16 * q)) in *. clearbody p.
  eapply gives_after. { apply gather64; [lia|]. intros i I. apply (HR 8%nat). lia. }
  eapply gives_after. { apply gather64; [lia|]. intros i I. specialize (HR 0%nat i). rewrite N.add_0_r in HR. apply HR. lia. }
  rewrite !N.lxor_0_l. cbn beta. unfold rest3_64. rewrite bytes_from_length, !word8_bytes.
  change (8 * 0)%nat with 0%nat. change (8 * 1)%nat with 8%nat.
  rewrite Nat.sub_0_r, N.add_0_r. replace (Nat.min 8 (r - 8)) with (r - 8)%nat by lia. apply gives_yield.
Qed.
