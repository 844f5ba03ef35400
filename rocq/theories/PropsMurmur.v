(** * PropsMurmur: the hash functions in third-party (C88, C89). *)
From Coq Require Import Arith.
From Verif Require Import Base ModelDistance ModelHash ModelMurmur SpecMurmur MurmurProofs MurmurInj HashFacts.
Local Open Scope N_scope.

Definition within (p : N) (len : Z) (x : N * N) : Prop := let '(a, width) := x in p <= a /\ (Z.of_N (a + width) <= Z.of_N p + len)%Z.
Lemma gives_inside : forall A (r : reading A) a p len, gives r a (within p len) -> exists l, r = Ok (a, l) /\ inside p len l.
Proof. intros A r a p len (l & E & F). exists l. auto. Qed.

Ltac within := intros; unfold within; lia.

(** A machine that has [bs] at address [p]. *)
Definition holding_bytes (big : bool) (p : N) (bs : list N) : machine :=
  Machine big (fun a => nth (N.to_nat (a - p)) bs 0).
Definition value {A} (r : reading A) : option A := match r with Ok (a, _) => Some a | _ => None end.

(** ** C88 *)

(** MurmurHashNeutral2 computes on every machine what MurmurHash2 computes on a
    little-endian one for the same bytes. *)
Theorem C88_neutral : forall m m' p p' len seed, big_endian m' = false -> key_at m p len = key_at m' p' len ->
  exists h l l', MurmurHashNeutral2 m p len seed = Ok (h, l) /\ inside p len l /\ MurmurHash2 m' p' len seed = Ok (h, l') /\ inside p' len l'.
Proof.
  intros m m' p p' len seed Le K.
  destruct (gives_inside _ _ _ p len (MurmurHashNeutral2_gives m p len seed (within p len) ltac:(within))) as (l & E & I).
  destruct (gives_inside _ _ _ p' len (MurmurHash2_gives m' p' len seed (within p' len) Le ltac:(within) ltac:(within))) as (l' & E' & I').
  rewrite <- K in E'. eauto 8.
Qed.

Example C88_neutral_case :
  let bs := [1; 2; 3; 4; 5; 6; 7] in
  key_at (holding_bytes true 100 bs) 100 7 = key_at (holding_bytes false 8 bs) 8 7 /\
  value (MurmurHashNeutral2 (holding_bytes true 100 bs) 100 7 42) = value (MurmurHash2 (holding_bytes false 8 bs) 8 7 42) /\
  value (MurmurHash2 (holding_bytes false 8 bs) 8 7 42) <> None.
Proof. vm_compute. repeat split. discriminate. Qed.

(** MurmurHashAligned2 computes what MurmurHash2 computes, but only reads words at
    multiples of their size. *)
Theorem C88_aligned : forall m p len seed, big_endian m = false ->
  exists h l l', MurmurHashAligned2 m p len seed = Ok (h, l) /\ inside p len l /\ aligned l /\ MurmurHash2 m p len seed = Ok (h, l').
Proof.
  intros m p len seed Le.
  destruct (MurmurHashAligned2_gives m p len seed (fun x => within p len x /\ (let '(a, width) := x in a mod width = 0)) Le) as (l & E & F).
  { intros j n H Hn A. split; [cbn; lia|auto]. }
  destruct (gives_inside _ _ _ p len (MurmurHash2_gives m p len seed (within p len) Le ltac:(within) ltac:(within))) as (l' & E' & _).
  exists (digest2 seed len (key_at m p len)), l, l'. split; [auto|]. split; [|split; [|auto]].
  - eapply Forall_impl; [|exact F]. intros [a n] [H _]. exact H.
  - eapply Forall_impl; [|exact F]. intros [a n] [_ H]. exact H.
Qed.

Example C88_aligned_case :
  let bs := [1; 2; 3; 4; 5; 6; 7; 8; 9; 10; 11; 12; 13; 14] in
  map (fun p => value (MurmurHashAligned2 (holding_bytes false p bs) p 14 42)) [8; 9; 10; 11] =
  map (fun p => value (MurmurHash2 (holding_bytes false p bs) p 14 42)) [8; 9; 10; 11] /\
  match MurmurHashAligned2 (holding_bytes false 9 bs) 9 14 42 with Ok (_, l) => In (12, 4) l /\ In (16, 4) l | _ => False end.
Proof. vm_compute. repeat split; auto 10. Qed.

(** MurmurHash2 itself reads words at other addresses. *)
Theorem C88_unaligned_refuted : exists m p len seed h l, big_endian m = false /\ MurmurHash2 m p len seed = Ok (h, l) /\ ~ aligned l.
Proof.
  exists (Machine false (fun _ => 0)), 1, 4%Z, 0, 3026825932, [(1, 4)].
  split; [reflexivity|]. split; [vm_compute; reflexivity|]. intros A. inversion A as [|x l H _]. vm_compute in H. discriminate.
Qed.

(** With the other byte order MurmurHash2 has other values, and MurmurHashAligned2
    depends on where the key lies. *)
Theorem C88_byte_order_refuted : exists bs,
  value (MurmurHash2 (holding_bytes true 8 bs) 8 8 0) <> value (MurmurHash2 (holding_bytes false 8 bs) 8 8 0) /\
  value (MurmurHashAligned2 (holding_bytes true 8 bs) 8 8 0) <> value (MurmurHashAligned2 (holding_bytes true 9 bs) 9 8 0).
Proof. exists [1; 2; 3; 4; 5; 6; 7; 8]. vm_compute. split; discriminate. Qed.

(** However a key is cut into pieces and wherever the pieces lie: adding them one
    after the other to a CMurmurHash2A, used before or not, gives what MurmurHash2A
    gives for the key in one piece. *)
Theorem C88_incremental : forall m m' p len pieces old seed, big_endian m = false -> big_endian m' = false ->
  Forall (fun '(_, n) => (0 <= n)%Z) pieces ->
  len = fold_right (fun '(_, n) s => (n + s)%Z) 0%Z pieces ->
  key_at m' p len = concat (map (fun '(q, n) => key_at m q n) pieces) ->
  exists c l l', add_all m (Begin old seed) pieces = Ok (c, l) /\
    Forall (fun '(a, width) => exists q n, In (q, n) pieces /\ q <= a /\ (Z.of_N (a + width) <= Z.of_N q + n)%Z) l /\
    MurmurHash2A m' p len seed = Ok (End c, l').
Proof.
  intros m m' p len pieces old seed Le Le' Pos Len K.
  assert (Pos' : Forall (fun x => (0 <= snd x)%Z) pieces) by (eapply Forall_impl; [|exact Pos]; intros [a n]; auto).
  assert (Tot : len = total pieces).
  { rewrite Len. unfold total. clear. induction pieces as [|[a n] ps IH]; auto. cbn [fold_right snd]. rewrite IH. auto. }
  assert (Bs : key_at m' p len = pieces_at m pieces).
  { rewrite K. unfold pieces_at. rewrite flat_map_concat_map. f_equal. apply map_ext. intros [a n]. auto. }
  destruct (add_all_gives m (fun '(a, width) => exists q n, In (q, n) pieces /\ q <= a /\ (Z.of_N (a + width) <= Z.of_N q + n)%Z)
              pieces (Begin old seed) seed []) as (c & h & t & (Hh & Ht & _) & Hs & He & l & El & Fl); auto.
  { repeat split; auto; cbn; try lia. constructor. }
  { intros q n I i w Hw _. exists q, n. split; [auto|]. lia. }
  destruct (gives_inside _ _ _ p len (MurmurHash2A_gives m' p len seed (within p len) Le' ltac:(within) ltac:(within))) as (l' & E' & _).
  exists c, l, l'. split; [auto|]. split; [auto|]. rewrite E'. f_equal. f_equal.
  unfold digest2a. rewrite Bs. cbn [app] in He. rewrite He. unfold End. rewrite Hh, Ht, Hs.
  cbn [Begin m_sum]. change 0 with (uint32 0). rewrite sums. rewrite Tot. reflexivity.
Qed.

Example C88_incremental_case :
  let m := holding_bytes false 0 [1; 2; 3; 4; 5; 6; 7; 8; 9; 10; 11] in
  let pieces := [(0, 3%Z); (3, 0%Z); (3, 6%Z); (9, 2%Z)] in
  key_at m 0 11 = concat (map (fun '(q, n) => key_at m q n) pieces) /\
  match add_all m (Begin (Hasher 7 7 7 7) 42) pieces with
  | Ok (c, _) => Some (End c) = value (MurmurHash2A m 0 11 42)
  | _ => False
  end.
Proof. vm_compute. split; reflexivity. Qed.

(** Not so on machines with the other byte order. *)
Theorem C88_incremental_refuted : exists m pieces c l, 
  concat (map (fun '(q, n) => key_at m q n) pieces) = key_at m 0 5 /\ big_endian m = true /\
  add_all m (Begin (Hasher 0 0 0 0) 0) pieces = Ok (c, l) /\ value (MurmurHash2A m 0 5 0) <> Some (End c).
Proof.
  exists (holding_bytes true 0 [1; 2; 3; 4; 5]), [(0, 1%Z); (1, 4%Z)]. eexists. eexists.
  split; [vm_compute; reflexivity|]. split; [reflexivity|]. split; [vm_compute; reflexivity|]. vm_compute. discriminate.
Qed.

(** All of them, on the machines they are made for. *)
Theorem C88_settled :
  settled MurmurHash2 /\ settled MurmurHash64B /\ settled MurmurHash2A /\ settled MurmurHashNeutral2 /\ settled MurmurHashAligned2 /\
  settled MurmurHash3_x86_32 /\ settled MurmurHash3_x86_128 /\ settled MurmurHash3_x64_128.
Proof.
  assert (G : forall A (f : machine -> N -> Z -> N -> reading A) (d : N -> Z -> list N -> A),
    (forall m p len seed, big_endian m = false -> (0 <= len)%Z -> gives (f m p len seed) (d seed len (key_at m p len)) (within p len)) -> settled f).
  { intros A f d H m m' p p' len seed Le Le' L K.
    destruct (gives_inside _ _ _ p len (H m p len seed Le L)) as (l & E & I).
    destruct (gives_inside _ _ _ p' len (H m' p' len seed Le' L)) as (l' & E' & I').
    rewrite <- K in E'. exists (d seed len (key_at m p len)), l, l'. auto. }
  split; [apply (G _ _ digest2); intros; apply MurmurHash2_gives; auto; within|].
  split; [apply (G _ _ digest64b); intros; apply MurmurHash64B_gives; auto; within|].
  split; [apply (G _ _ digest2a); intros; apply MurmurHash2A_gives; auto; within|].
  split; [apply (G _ _ digest2); intros; apply MurmurHashNeutral2_gives; auto; within|].
  split; [apply (G _ _ digest2); intros; apply MurmurHashAligned2_gives; auto; within|].
  split; [apply (G _ _ digest3_32); intros; apply MurmurHash3_x86_32_gives; auto; within|].
  split; [apply (G _ _ digest3_128); intros; apply MurmurHash3_x86_128_gives; auto; within|].
  apply (G _ _ digest3_64); intros; apply MurmurHash3_x64_128_gives; auto; within.
Qed.

(** ** C89 *)
Lemma key_bytes : forall m p len, bytes (key_at m p len).
Proof. intros. apply bytes_from_bytes. Qed.
Lemma differ_pos : forall w m m' p p' len, differ_within w (key_at m p len) (key_at m' p' len) -> (0 <= len)%Z.
Proof.
  intros w m m' p p' len (_ & Ne & _). destruct (Z.le_gt_cases 0 len); auto. exfalso. apply Ne. unfold key_at.
  replace (Z.to_nat len) with O by lia. reflexivity.
Qed.

(** Keys of the same length that differ within one block never collide. *)
Theorem C89_blocks :
  tells_blocks_apart 4 32 MurmurHash2 /\ tells_blocks_apart 4 32 MurmurHashNeutral2 /\ tells_blocks_apart 4 32 MurmurHashAligned2 /\
  tells_blocks_apart 4 32 MurmurHash2A /\ tells_blocks_apart 8 64 MurmurHash64B /\
  tells_blocks_apart 4 32 MurmurHash3_x86_32 /\ tells_blocks_apart 16 32 MurmurHash3_x86_128 /\ tells_blocks_apart 16 32 MurmurHash3_x64_128.
Proof.
  assert (G : forall A w bits (f : machine -> N -> Z -> N -> reading A) (d : N -> Z -> list N -> A),
    (forall m p len seed, big_endian m = false -> (0 <= len)%Z -> gives (f m p len seed) (d seed len (key_at m p len)) (within p len)) ->
    (forall len k1 k2 s, bytes k1 -> bytes k2 -> s < 2 ^ bits -> differ_within w k1 k2 -> d s len k1 <> d s len k2) ->
    tells_blocks_apart w bits f).
  { intros A w bits f d H D m m' p p' len seed h h' l l' Le Le' Ls Df E E'. pose proof (differ_pos _ _ _ _ _ _ Df) as L.
    destruct (H m p len seed Le L) as (k & Ek & _). destruct (H m' p' len seed Le' L) as (k' & Ek' & _).
    rewrite Ek in E. rewrite Ek' in E'. injection E as <- _. injection E' as <- _. apply D; auto using key_bytes. }
  split; [apply (G _ _ _ _ digest2); [intros; apply MurmurHash2_gives; auto; within|exact digest2_block]|].
  split; [apply (G _ _ _ _ digest2); [intros; apply MurmurHashNeutral2_gives; auto; within|exact digest2_block]|].
  split; [apply (G _ _ _ _ digest2); [intros; apply MurmurHashAligned2_gives; auto; within|exact digest2_block]|].
  split; [apply (G _ _ _ _ digest2a); [intros; apply MurmurHash2A_gives; auto; within|exact digest2a_block]|].
  split; [apply (G _ _ _ _ digest64b); [intros; apply MurmurHash64B_gives; auto; within|exact digest64b_block]|].
  split; [apply (G _ _ _ _ digest3_32); [intros; apply MurmurHash3_x86_32_gives; auto; within|exact digest3_32_block]|].
  split; [apply (G _ _ _ _ digest3_128); [intros; apply MurmurHash3_x86_128_gives; auto; within|exact digest3_128_block]|].
  apply (G _ _ _ _ digest3_64); [intros; apply MurmurHash3_x64_128_gives; auto; within|].
  intros len k1 k2 s B1 B2 L. apply digest3_64_block; auto. eapply N.lt_trans; [exact L|reflexivity].
Qed.

Example C89_blocks_case :
  let a := holding_bytes false 0 [1; 2; 3; 4; 5; 6; 7; 8; 9; 10] in
  let b := holding_bytes false 3 [1; 2; 3; 4; 9; 9; 9; 9; 9; 10] in
  differ_within 4 (key_at a 0 10) (key_at b 3 10) /\ ~ differ_within 2 (key_at a 0 10) (key_at b 3 10) /\
  value (MurmurHash2 a 0 10 42) <> value (MurmurHash2 b 3 10 42).
Proof.
  cbv zeta. split; [|split; [|vm_compute; discriminate]].
  - split; [reflexivity|]. split; [vm_compute; discriminate|]. exists 1%nat. intros j J.
    destruct j as [|[|[|[|[|[|[|[|[|[|j]]]]]]]]]]; try (vm_compute; reflexivity); try (exfalso; apply J; reflexivity).
  - intros (_ & _ & i & H). destruct (Nat.eq_dec 2 i) as [<-|Ne].
    + specialize (H 6%nat ltac:(cbn; lia)). vm_compute in H. discriminate.
    + specialize (H 4%nat Ne). vm_compute in H. discriminate.
Qed.

(** The hash of one key for two seeds. *)
Theorem C89_seeds :
  tells_seeds_apart 32 MurmurHash2 /\ tells_seeds_apart 32 MurmurHashNeutral2 /\ tells_seeds_apart 32 MurmurHashAligned2 /\
  tells_seeds_apart 32 MurmurHash2A /\ tells_seeds_apart 64 MurmurHash64B /\
  tells_seeds_apart 32 MurmurHash3_x86_32 /\ tells_seeds_apart 32 MurmurHash3_x86_128 /\ tells_seeds_apart 32 MurmurHash3_x64_128.
Proof.
  assert (G : forall A bits (f : machine -> N -> Z -> N -> reading A) (d : N -> Z -> list N -> A),
    (forall m p len seed, big_endian m = false -> (0 <= len)%Z -> gives (f m p len seed) (d seed len (key_at m p len)) (within p len)) ->
    (forall len bs s s', bytes bs -> s < 2 ^ bits -> s' < 2 ^ bits -> d s len bs = d s' len bs -> s = s') ->
    tells_seeds_apart bits f).
  { intros A bits f d H D m p len seed seed' h h' l l' Le L Ls Ls' Ne E E'.
    destruct (H m p len seed Le L) as (k & Ek & _). destruct (H m p len seed' Le L) as (k' & Ek' & _).
    rewrite Ek in E. rewrite Ek' in E'. injection E as <- _. injection E' as <- _. intros X. apply Ne.
    eapply D; [apply key_bytes| | |exact X]; auto. }
  split; [apply (G _ _ _ digest2); [intros; apply MurmurHash2_gives; auto; within|exact digest2_seed]|].
  split; [apply (G _ _ _ digest2); [intros; apply MurmurHashNeutral2_gives; auto; within|exact digest2_seed]|].
  split; [apply (G _ _ _ digest2); [intros; apply MurmurHashAligned2_gives; auto; within|exact digest2_seed]|].
  split; [apply (G _ _ _ digest2a); [intros; apply MurmurHash2A_gives; auto; within|exact digest2a_seed]|].
  split; [apply (G _ _ _ digest64b); [intros; apply MurmurHash64B_gives; auto; within|exact digest64b_seed]|].
  split; [apply (G _ _ _ digest3_32); [intros; apply MurmurHash3_x86_32_gives; auto; within|exact digest3_32_seed]|].
  split; [apply (G _ _ _ digest3_128); [intros; apply MurmurHash3_x86_128_gives; auto; within|exact digest3_128_seed]|].
  apply (G _ _ _ digest3_64); [intros; apply MurmurHash3_x64_128_gives; auto; within|].
  intros len bs s s' B L L'. apply digest3_64_seed; auto; eapply N.lt_trans; eauto; reflexivity.
Qed.

(** MurmurHash64A, the one that the library uses. *)
Theorem C89_library : forall k1 k2 seed, Forall (fun b => b < 256) k1 -> Forall (fun b => b < 256) k2 -> seed < 2 ^ 64 ->
  (differ_within 8 k1 k2 -> murmur64a k1 seed <> murmur64a k2 seed) /\
  (forall seed', seed' < 2 ^ 64 -> seed <> seed' -> murmur64a k1 seed <> murmur64a k1 seed').
Proof.
  intros k1 k2 seed B1 B2 L. split; [apply murmur64a_block; auto|].
  intros seed' L' Ne E. apply Ne. apply (murmur64a_seed k1); auto.
Qed.

(** Pairs of strings of which one member is the same and the other differs within
    one block. *)
Theorem C89_pairs : forall u v w c c', short_key (u, w) -> short_key (v, w) -> differ_within 8 (map uchar u) (map uchar v) ->
  (pair_hash (u, w) = Ok c -> pair_hash (v, w) = Ok c' -> c <> c') /\
  (pair_hash (w, u) = Ok c -> pair_hash (w, v) = Ok c' -> c <> c').
Proof.
  intros u v w c c' [Su Sw] [Sv _] D. cbn [fst snd] in *. unfold pair_hash. cbn [fst snd].
  assert (B : forall x, bytes (map uchar x)).
  { intros x. apply Forall_map, Forall_forall. intros a _. unfold uchar. apply N_ascii_bounded. }
  assert (W : forall k s, w64 s -> w64 (murmur64a k s)).
  { intros k s Ls. unfold murmur64a, murmur_of. cbv zeta. apply (xor_shift_lt 64). word. }
  rewrite !str_hash_short by auto. cbn [rbind]. rewrite !str_hash_short by auto.
  split; intros E E'; injection E as <-; injection E' as <-; intros X.
  - apply murmur64a_seed in X; auto; try (apply W; reflexivity). revert X. apply murmur64a_block; auto. reflexivity.
  - revert X. apply murmur64a_block; auto. apply W. reflexivity.
Qed.

Example C89_pairs_case :
  differ_within 8 (map uchar (lit "cat")) (map uchar (lit "cut")) /\ short_key (lit "cat", lit "dog") /\
  differ_within 8 (map uchar (lit "wonderful!")) (map uchar (lit "wonderful?")) /\
  pair_hash (lit "cat", lit "dog") <> pair_hash (lit "cut", lit "dog").
Proof.
  split; [|split; [split; vm_compute; discriminate|split; [|vm_compute; discriminate]]].
  - split; [reflexivity|]. split; [discriminate|]. exists 0%nat. intros j J.
    destruct (Nat.lt_ge_cases j 8) as [L|L]; [exfalso; apply J, Nat.div_small; auto|]. rewrite !nth_overflow; auto; cbn; lia.
  - split; [reflexivity|]. split; [discriminate|]. exists 1%nat. intros j J.
    do 8 (destruct j as [|j]; [reflexivity|]). do 8 (destruct j as [|j]; [exfalso; apply J; reflexivity|]). reflexivity.
Qed.

(** Beyond one block there are collisions, also for the library's function. *)
Theorem C89_two_blocks_refuted :
  (exists k1 k2, k1 <> k2 /\ length k1 = length k2 /\
     value (MurmurHash2 (holding_bytes false 0 k1) 0 8 0) = value (MurmurHash2 (holding_bytes false 0 k2) 0 8 0) /\
     key_at (holding_bytes false 0 k1) 0 8 = k1 /\ key_at (holding_bytes false 0 k2) 0 8 = k2 /\ value (MurmurHash2 (holding_bytes false 0 k1) 0 8 0) <> None) /\
  (exists k1 k2, k1 <> k2 /\ length k1 = length k2 /\ murmur64a k1 0 = murmur64a k2 0).
Proof.
  split.
  - exists [0; 0; 0; 0; 0; 0; 0; 0], [1; 0; 0; 0; 49; 105; 196; 109]. split; [discriminate|]. split; [reflexivity|].
    split; [vm_compute; reflexivity|]. split; [reflexivity|]. split; [reflexivity|]. vm_compute. discriminate.
  - exists [97; 97; 97; 97; 97; 97; 97; 97; 97; 97; 97; 97; 97; 97; 97; 97], [98; 98; 98; 98; 98; 98; 98; 98; 89; 179; 79; 128; 137; 190; 104; 169].
    split; [discriminate|]. split; [reflexivity|]. vm_compute. reflexivity.
Qed.

Print Assumptions C88_neutral.
Print Assumptions C88_aligned.
Print Assumptions C88_unaligned_refuted.
Print Assumptions C88_byte_order_refuted.
Print Assumptions C88_incremental.
Print Assumptions C88_incremental_refuted.
Print Assumptions C88_settled.
Print Assumptions C89_blocks.
Print Assumptions C89_seeds.
Print Assumptions C89_library.
Print Assumptions C89_pairs.
Print Assumptions C89_two_blocks_refuted.
