(** * ModelHash: MurmurHash64A and the hash of a pair of strings. *)
From Verif Require Import Base ModelDistance.

Section Murmur.
Local Open Scope N_scope.

(** The multiplier [m] and the shift [r] (MurmurHash2.cpp:100-101). *)
Definition mm : N := 14313749767032793493.   (* 0xc6a4a7935bd1e995 *)
Definition mr : N := 47.

(** [uint64_t] multiplication. *)
Definition wmul (a b : N) : N := (a * b) mod W.

(** Eight (or fewer) bytes read as a little-endian integer: [*data++]
    (MurmurHash2.cpp:110) on the little-endian platforms considered, and the
    cases of the switch (MurmurHash2.cpp:122-131), which place byte [i] at bit
    [8*i]. *)
Fixpoint little_endian (bytes : list N) : N :=
  match bytes with
  | [] => 0
  | b :: bytes' => b + 256 * little_endian bytes'
  end.

(** The body of the block loop (MurmurHash2.cpp:110-117). *)
Definition mix_block (h k : N) : N :=
  let k := wmul k mm in
  let k := N.lxor k (N.shiftr k mr) in
  let k := wmul k mm in
  wmul (N.lxor h k) mm.

(** The loop over whole 8-byte blocks and the switch on the remaining bytes
    (MurmurHash2.cpp:105-132).  The pointer walk [data != end] is a recursion on
    the bytes that are left. *)
Fixpoint mix_bytes (h : N) (bytes : list N) : N :=
  match bytes with
  | b0 :: b1 :: b2 :: b3 :: b4 :: b5 :: b6 :: b7 :: rest =>
      mix_bytes (mix_block h (little_endian [b0; b1; b2; b3; b4; b5; b6; b7])) rest
  | [] => h
  | tail => wmul (N.lxor h (little_endian tail)) mm
  end.

(** MurmurHash64A (MurmurHash2.cpp:98-139): [len] is the length as a uint64_t,
    [bytes] are the bytes that are read. *)
Definition murmur_of (len : N) (bytes : list N) (seed : N) : N :=
  let h := N.lxor seed (wmul len mm) in
  let h := mix_bytes h bytes in
  let h := N.lxor h (N.shiftr h mr) in
  let h := wmul h mm in
  N.lxor h (N.shiftr h mr).

(** MurmurHash64A(key, len, seed), [bytes] being the [len] bytes at [key]. *)
Definition murmur64a (bytes : list N) (seed : N) : N := murmur_of (N.of_nat (length bytes)) bytes seed.

(** The [len] = 1 call on a one-element array of uint64 (dawg_node.cpp:101,
    104, 108; dawg.cpp:87, 90): only the lowest byte of the key is read
    (little-endian). *)
Definition murmur_key (key seed : N) : N := murmur64a [key mod 256] seed.

Definition DEADBEEF : N := 3735928559.

(** [(int) n] of a size_t: the lowest 32 bits. *)
Definition int_of (n : N) : Z :=
  let m := n mod 2 ^ 32 in if m <? 2 ^ 31 then Z.of_N m else (Z.of_N m - 2 ^ 32)%Z.

(** MurmurHash64A(u.c_str(), (int) u.length(), seed).  If the length is -8 or
    less, [end] is before [data] and the walk leaves the string.  If it is
    between -7 and -1, [len/8] is 0 and only [len & 7] bytes are read; the length
    is converted to uint64_t where it is multiplied. *)
Definition str_hash (u : str) (seed : N) : res N :=
  let len := int_of (N.of_nat (length u)) in
  if (len <=? -8)%Z then UB
  else Ok (murmur_of (Z.to_N (len mod 2 ^ 64))
             (map uchar (firstn (Z.to_nat (if (0 <=? len)%Z then len else len mod 8)) u)) seed).

(** std::hash<SymmetricPair> (symmetric_pair.cpp:36-43). *)
Definition pair_hash (p : key) : res N :=
  do code <- str_hash (fst p) DEADBEEF;
  str_hash (snd p) code.

End Murmur.
