(** * SpecMurmur: vocabulary for the hash functions in third-party. *)
From Verif Require Import Base ModelHash ModelMurmur.
Local Open Scope N_scope.

(** The bytes of the key at [p]. *)
Definition key_at (m : machine) (p : N) (len : Z) : list N := bytes_from m p (Z.to_nat len).

(** What is read lies in the [len] bytes at [p]. *)
Definition inside (p : N) (len : Z) (l : log) : Prop :=
  Forall (fun '(a, width) => p <= a /\ (Z.of_N (a + width) <= Z.of_N p + len)%Z) l.

(** Every word that is read lies at a multiple of its size. *)
Definition aligned (l : log) : Prop := Forall (fun '(a, width) => a mod width = 0) l.

(** Adding the pieces of a key one after the other. *)
Fixpoint add_all (m : machine) (c : hasher) (pieces : list (N * Z)) : reading hasher :=
  match pieces with
  | [] => yield c
  | (p, len) :: pieces' => let! c := Add m c p len in add_all m c pieces'
  end.

(** Keys that differ within one block of [w] bytes. *)
Definition differ_within (w : nat) (k1 k2 : list N) : Prop :=
  length k1 = length k2 /\ k1 <> k2 /\ exists i, forall j, (j / w)%nat <> i -> nth j k1 0 = nth j k2 0.

(** Whatever the function computes and reads is settled by the bytes of the key,
    its length and the seed: it never fails, wherever the key lies, the hash is the
    same for equal keys, and nothing outside of the key is read. *)
Definition settled {A} (f : machine -> N -> Z -> N -> reading A) : Prop :=
  forall m m' p p' len seed, big_endian m = false -> big_endian m' = false -> (0 <= len)%Z ->
  key_at m p len = key_at m' p' len ->
  exists h l l', f m p len seed = Ok (h, l) /\ inside p len l /\ f m' p' len seed = Ok (h, l') /\ inside p' len l'.

(** Keys of the same length that differ within one block of [w] bytes have
    different hashes, for every seed of [bits] bits. *)
Definition tells_blocks_apart {A} (w : nat) (bits : N) (f : machine -> N -> Z -> N -> reading A) : Prop :=
  forall m m' p p' len seed h h' l l', big_endian m = false -> big_endian m' = false -> seed < 2 ^ bits ->
  differ_within w (key_at m p len) (key_at m' p' len) ->
  f m p len seed = Ok (h, l) -> f m' p' len seed = Ok (h', l') -> h <> h'.

(** Two seeds of [bits] bits give one key two hashes. *)
Definition tells_seeds_apart {A} (bits : N) (f : machine -> N -> Z -> N -> reading A) : Prop :=
  forall m p len seed seed' h h' l l', big_endian m = false -> (0 <= len)%Z -> seed < 2 ^ bits -> seed' < 2 ^ bits -> seed <> seed' ->
  f m p len seed = Ok (h, l) -> f m p len seed' = Ok (h', l') -> h <> h'.
