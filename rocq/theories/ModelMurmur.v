(** * ModelMurmur: the other functions of third-party/MurmurHash2.cpp and those of
    third-party/MurmurHash3.cpp.

    The library itself only calls MurmurHash64A, which is in ModelHash.v.  These
    functions read a key of [len] bytes at an address.  The model keeps a list of
    what is read: pairs of an address and a number of bytes.  [len] is an int; the
    key lies where no address overflows. *)
From Verif Require Import Base ModelHash.
Local Open Scope N_scope.

(** A machine: whether the most significant byte of a word comes first, and what
    is in its memory. *)
Record machine := Machine { big_endian : bool; memory : N -> N }.
Definition byte_at (m : machine) (p : N) : N := memory m p mod 256.

Fixpoint bytes_from (m : machine) (p : N) (n : nat) : list N :=
  match n with O => [] | S n' => byte_at m p :: bytes_from m (p + 1) n' end.

Definition word_at (m : machine) (p : N) (n : nat) : N :=
  let bs := bytes_from m p n in little_endian (if big_endian m then rev bs else bs).

(** Programs that read memory. *)
Definition log := list (N * N).
Definition reading (A : Type) : Type := res (A * log).
Definition yield {A} (a : A) : reading A := Ok (a, []).
Definition after {A B} (e : reading A) (f : A -> reading B) : reading B :=
  do (a, l1) <- e; do (b, l2) <- f a; Ok (b, l1 ++ l2).
Notation "'let!' x := e 'in' f" := (after e (fun x => f))
  (at level 60, x pattern, e at level 200, f at level 200, right associativity).

(** Reading through a pointer to unsigned char, to uint32_t and to uint64_t. *)
Definition read8 (m : machine) (p : N) : reading N := Ok (byte_at m p, [(p, 1)]).
Definition read32 (m : machine) (p : N) : reading N := Ok (word_at m p 4, [(p, 4)]).
Definition read64 (m : machine) (p : N) : reading N := Ok (word_at m p 8, [(p, 8)]).

(** Arithmetic on uint32_t and uint64_t; shifts of unsigned chars, which are ints,
    are converted to the type of the left-hand side. *)
Definition mul32 (a b : N) : N := (a * b) mod 2 ^ 32.
Definition add32 (a b : N) : N := (a + b) mod 2 ^ 32.
Definition shl32 (a k : N) : N := N.shiftl a k mod 2 ^ 32.
Definition mul64 (a b : N) : N := (a * b) mod 2 ^ 64.
Definition add64 (a b : N) : N := (a + b) mod 2 ^ 64.
Definition shl64 (a k : N) : N := N.shiftl a k mod 2 ^ 64.
Definition uint32 (z : Z) : N := Z.to_N (z mod 2 ^ 32).
Definition uint64 (z : Z) : N := Z.to_N (z mod 2 ^ 64).
Definition xor_shift (h k : N) : N := N.lxor h (N.shiftr h k).

(** ** MurmurHash2.cpp *)

(** 0x5bd1e995 (MurmurHash2.cpp:43). *)
Definition m2 : N := 1540483477.

(** The macros mmix and MIX (MurmurHash2.cpp:207, 395) and the same lines written
    out (58-63): what becomes of [h]. *)
Definition mix2 (h k : N) : N :=
  let k := mul32 k m2 in
  let k := xor_shift k 24 in
  let k := mul32 k m2 in
  N.lxor (mul32 h m2) k.

(** The last lines of all of them (MurmurHash2.cpp:82-84, 242-244, ...). *)
Definition final2 (h : N) : N := xor_shift (mul32 (xor_shift h 13) m2) 15.

(** The bytes behind the last block: case 3, case 2 and case 1 of the switches,
    without the multiplication (MurmurHash2.cpp:73-75): what is xored. *)
Definition case1 (m : machine) (data h : N) : reading N :=
  let! b := read8 m data in yield (N.lxor h b).
Definition case2 (m : machine) (data h : N) : reading N :=
  let! b := read8 m (data + 1) in case1 m data (N.lxor h (shl32 b 8)).
Definition case3 (m : machine) (data h : N) : reading N :=
  let! b := read8 m (data + 2) in case2 m data (N.lxor h (shl32 b 16)).

(** switch(len) (MurmurHash2.cpp:71-77). *)
Definition tail2 (m : machine) (data : N) (len : Z) (h : N) : reading N :=
  match len with
  | 3%Z => let! h := case3 m data h in yield (mul32 h m2)
  | 2%Z => let! h := case2 m data h in yield (mul32 h m2)
  | 1%Z => let! h := case1 m data h in yield (mul32 h m2)
  | _ => yield h
  end.

(** while(len >= 4) (MurmurHash2.cpp:54-67). *)
Fixpoint loop2 (fuel : nat) (m : machine) (data : N) (len : Z) (h : N) : reading (N * Z * N) :=
  match fuel with
  | O => OOF
  | S fuel' =>
      if (4 <=? len)%Z then
        let! k := read32 m data in
        loop2 fuel' m (data + 4) (len - 4) (mix2 h k)
      else yield (data, len, h)
  end.

(** Enough rounds for every loop over [len] bytes. *)
Definition rounds (len : Z) : nat := S (Z.to_nat len).

(** MurmurHash2 (MurmurHash2.cpp:38-87). *)
Definition MurmurHash2 (m : machine) (key : N) (len : Z) (seed : N) : reading N :=
  let! (data, len, h) := loop2 (rounds len) m key len (N.lxor seed (uint32 len)) in
  let! h := tail2 m data len h in
  yield (final2 h).

(** MurmurHash64B: while(len >= 8) (MurmurHash2.cpp:155-166). *)
Fixpoint loop64b (fuel : nat) (m : machine) (data : N) (len : Z) (h1 h2 : N) : reading (N * Z * N * N) :=
  match fuel with
  | O => OOF
  | S fuel' =>
      if (8 <=? len)%Z then
        let! k1 := read32 m data in
        let! k2 := read32 m (data + 4) in
        loop64b fuel' m (data + 8) (len - 8) (mix2 h1 k1) (mix2 h2 k2)
      else yield (data, len, h1, h2)
  end.

(** MurmurHash2.cpp:184-191. *)
Definition final64b (h1 h2 : N) : N :=
  let h1 := mul32 (N.lxor h1 (N.shiftr h2 18)) m2 in
  let h2 := mul32 (N.lxor h2 (N.shiftr h1 22)) m2 in
  let h1 := mul32 (N.lxor h1 (N.shiftr h2 17)) m2 in
  let h2 := mul32 (N.lxor h2 (N.shiftr h1 19)) m2 in
  N.lor (shl64 h1 32) h2.

(** MurmurHash64B (MurmurHash2.cpp:145-194). *)
Definition MurmurHash64B (m : machine) (key : N) (len : Z) (seed : N) : reading N :=
  let! (data, len, h1, h2) :=
    loop64b (rounds len) m key len (N.lxor (seed mod 2 ^ 32) (uint32 len)) (N.shiftr seed 32) in
  let! (data, len, h1) :=
    if (4 <=? len)%Z then
      let! k1 := read32 m data in yield (data + 4, (len - 4)%Z, mix2 h1 k1)
    else yield (data, len, h1) in
  let! h2 := tail2 m data len h2 in
  yield (final64b h1 h2).

(** MurmurHash2A (MurmurHash2.cpp:210-247). *)
Definition MurmurHash2A (m : machine) (key : N) (len : Z) (seed : N) : reading N :=
  let l := uint32 len in
  let! (data, len, h) := loop2 (rounds len) m key len seed in
  let! t := match len with
            | 3%Z => case3 m data 0
            | 2%Z => case2 m data 0
            | 1%Z => case1 m data 0
            | _ => yield 0
            end in
  yield (final2 (mix2 (mix2 h t) l)).

(** CMurmurHash2A (MurmurHash2.cpp:265-336). *)
Record hasher := Hasher { m_hash : N; m_tail : N; m_count : N; m_sum : N }.

(** Begin (MurmurHash2.cpp:269-275), whatever was in the object. *)
Definition Begin (old : hasher) (seed : N) : hasher := Hasher seed 0 0 0.

(** MixTail (MurmurHash2.cpp:313-330). *)
Fixpoint MixTail (fuel : nat) (m : machine) (c : hasher) (data : N) (len : Z) : reading (hasher * N * Z) :=
  match fuel with
  | O => OOF
  | S fuel' =>
      if negb (len =? 0)%Z && ((len <? 4)%Z || negb (m_count c =? 0)) then
        let! b := read8 m data in
        let t := N.lor (m_tail c) (shl32 b (m_count c * 8)) in
        let n := m_count c + 1 in
        if n =? 4 then MixTail fuel' m (Hasher (mix2 (m_hash c) t) 0 0 (m_sum c)) (data + 1) (len - 1)
        else MixTail fuel' m (Hasher (m_hash c) t n (m_sum c)) (data + 1) (len - 1)
      else yield (c, data, len)
  end.

(** Add (MurmurHash2.cpp:277-294). *)
Definition Add (m : machine) (c : hasher) (data : N) (len : Z) : reading hasher :=
  let fuel := rounds len in
  let c := Hasher (m_hash c) (m_tail c) (m_count c) (add32 (m_sum c) (uint32 len)) in
  let! (c, data, len) := MixTail fuel m c data len in
  let! (data, len, h) := loop2 fuel m data len (m_hash c) in
  let! (c, data, len) := MixTail fuel m (Hasher h (m_tail c) (m_count c) (m_sum c)) data len in
  yield c.

(** End (MurmurHash2.cpp:296-306). *)
Definition End (c : hasher) : N := final2 (mix2 (mix2 (m_hash c) (m_tail c)) (m_sum c)).

(** MurmurHashNeutral2: while(len >= 4) (MurmurHash2.cpp:352-370). *)
Fixpoint loop_neutral (fuel : nat) (m : machine) (data : N) (len : Z) (h : N) : reading (N * Z * N) :=
  match fuel with
  | O => OOF
  | S fuel' =>
      if (4 <=? len)%Z then
        let! b0 := read8 m data in
        let! b1 := read8 m (data + 1) in
        let! b2 := read8 m (data + 2) in
        let! b3 := read8 m (data + 3) in
        let k := N.lor (N.lor (N.lor b0 (shl32 b1 8)) (shl32 b2 16)) (shl32 b3 24) in
        loop_neutral fuel' m (data + 4) (len - 4) (mix2 h k)
      else yield (data, len, h)
  end.

(** MurmurHashNeutral2 (MurmurHash2.cpp:343-385). *)
Definition MurmurHashNeutral2 (m : machine) (key : N) (len : Z) (seed : N) : reading N :=
  let! (data, len, h) := loop_neutral (rounds len) m key len (N.lxor seed (uint32 len)) in
  let! h := tail2 m data len h in
  yield (final2 h).

(** The same cases with [|=] in place of [^=] (MurmurHash2.cpp:415-420, 453-458, 479-484). *)
Definition or1 (m : machine) (data t : N) : reading N :=
  let! b := read8 m data in yield (N.lor t b).
Definition or2 (m : machine) (data t : N) : reading N :=
  let! b := read8 m (data + 1) in or1 m data (N.lor t (shl32 b 8)).
Definition or3 (m : machine) (data t : N) : reading N :=
  let! b := read8 m (data + 2) in or2 m data (N.lor t (shl32 b 16)).
Definition or_bytes (m : machine) (data : N) (n : N) (t : N) : reading N :=
  match n with 3 => or3 m data t | 2 => or2 m data t | 1 => or1 m data t | _ => yield t end.

(** MurmurHashAligned2: the loop with the two registers (MurmurHash2.cpp:432-444). *)
Fixpoint loop_aligned (fuel : nat) (m : machine) (sl sr : N) (data : N) (len : Z) (h t : N)
  : reading (N * Z * N * N) :=
  match fuel with
  | O => OOF
  | S fuel' =>
      if (4 <=? len)%Z then
        let! d := read32 m data in
        let k := N.lor (N.shiftr t sr) (shl32 d sl) in
        loop_aligned fuel' m sl sr (data + 4) (len - 4) (mix2 h k) d
      else yield (data, len, h, t)
  end.

(** MurmurHashAligned2 (MurmurHash2.cpp:398-524). *)
Definition MurmurHashAligned2 (m : machine) (key : N) (len : Z) (seed : N) : reading N :=
  let h := N.lxor seed (uint32 len) in
  let align := key mod 4 in
  if negb (align =? 0) && (4 <=? len)%Z then
    let! t := or_bytes m key (4 - align) 0 in
    let t := shl32 t (8 * align) in
    let sl := 8 * (4 - align) in
    let sr := 8 * align in
    let! (data, len, h, t) :=
      loop_aligned (rounds len) m sl sr (key + (4 - align)) (len - Z.of_N (4 - align)) h t in
    let! h :=
      if (Z.of_N align <=? len)%Z then
        let! d := or_bytes m data align 0 in
        let k := N.lor (N.shiftr t sr) (shl32 d sl) in
        tail2 m (data + align) (len - Z.of_N align) (mix2 h k)
      else
        match len with
        | 3%Z | 2%Z | 1%Z | 0%Z =>
            let! d := or_bytes m data (Z.to_N len) 0 in
            yield (mul32 (N.lxor h (N.lor (N.shiftr t sr) (shl32 d sl))) m2)
        | _ => yield h
        end in
    yield (final2 h)
  else
    let! (data, len, h) := loop2 (rounds len) m key len h in
    let! h := tail2 m data len h in
    yield (final2 h).

(** ** MurmurHash3.cpp *)

(** rotl32, rotl64 (MurmurHash3.cpp:34-42). *)
Definition rotl32 (x r : N) : N := N.lor (shl32 x r) (N.shiftr x (32 - r)).
Definition rotl64 (x r : N) : N := N.lor (shl64 x r) (N.shiftr x (64 - r)).

(** fmix32 (MurmurHash3.cpp:68-77). *)
Definition fmix32 (h : N) : N :=
  let h := mul32 (xor_shift h 16) 2246822507 in    (* 0x85ebca6b *)
  let h := mul32 (xor_shift h 13) 3266489909 in    (* 0xc2b2ae35 *)
  xor_shift h 16.

(** fmix64 (MurmurHash3.cpp:81-90). *)
Definition fmix64 (k : N) : N :=
  let k := mul64 (xor_shift k 33) 18397679294719823053 in    (* 0xff51afd7ed558ccd *)
  let k := mul64 (xor_shift k 33) 14181476777654086739 in    (* 0xc4ceb9fe1a85ec53 *)
  xor_shift k 33.

(** The address of [p[i]] (getblock32, getblock64, MurmurHash3.cpp:55-63). *)
Definition index (p : N) (width i : Z) : N := Z.to_N (Z.of_N p + width * i).

(** The cases of a switch that put the [n] bytes at [p] into one number, the last
    byte first. *)
Fixpoint gather (shl : N -> N -> N) (m : machine) (p : N) (n : nat) (k : N) : reading N :=
  match n with
  | O => yield k
  | S n' => let! b := read8 m (p + N.of_nat n') in gather shl m p n' (N.lxor k (shl b (8 * N.of_nat n')))
  end.

(** [k *= c1; k = ROTL32(k, r); k *= c2;] *)
Definition scramble32 (k c1 r c2 : N) : N := mul32 (rotl32 (mul32 k c1) r) c2.
Definition scramble64 (k c1 r c2 : N) : N := mul64 (rotl64 (mul64 k c1) r) c2.

(** [h = ROTL32(h, r); h += g; h = h * 5 + c;], without [h += g] for [g] = 0. *)
Definition stir32 (h r g c : N) : N := add32 (mul32 (add32 (rotl32 h r) g) 5) c.
Definition stir64 (h r g c : N) : N := add64 (mul64 (add64 (rotl64 h r) g) 5) c.

(** MurmurHash3_x86_32: the body (MurmurHash3.cpp:110-123).  For negative [len] the
    index runs away from 0. *)
Definition c32_1 : N := 3432918353.    (* 0xcc9e2d51 *)
Definition c32_2 : N := 461845907.     (* 0x1b873593 *)

Definition step32 (h1 k1 : N) : N := stir32 (N.lxor h1 (scramble32 k1 c32_1 15 c32_2)) 13 0 3864292196.   (* 0xe6546b64 *)

Fixpoint loop3_32 (fuel : nat) (m : machine) (blocks : N) (i : Z) (h1 : N) : reading N :=
  match fuel with
  | O => OOF
  | S fuel' =>
      if (i =? 0)%Z then yield h1
      else if (0 <? i)%Z then UB
      else
        let! k1 := read32 m (index blocks 4 i) in
        loop3_32 fuel' m blocks (i + 1) (step32 h1 k1)
  end.

(** MurmurHash3_x86_32 (MurmurHash3.cpp:95-147). *)
Definition MurmurHash3_x86_32 (m : machine) (key : N) (len : Z) (seed : N) : reading N :=
  let nblocks := Z.quot len 4 in
  let blocks := index key 4 nblocks in
  let! h1 := loop3_32 (rounds len) m blocks (- nblocks) seed in
  let n := Z.to_nat (len mod 4) in
  let! k1 := gather shl32 m blocks n 0 in
  let h1 := if Nat.ltb 0 n then N.lxor h1 (scramble32 k1 c32_1 15 c32_2) else h1 in
  yield (fmix32 (N.lxor h1 (uint32 len))).

(** MurmurHash3_x86_128: the constants (MurmurHash3.cpp:163-166). *)
Definition c1_128 : N := 597399067.     (* 0x239b961b *)
Definition c2_128 : N := 2869860233.    (* 0xab0e9789 *)
Definition c3_128 : N := 951274213.     (* 0x38b34ae5 *)
Definition c4_128 : N := 2716044179.    (* 0xa1e38b93 *)

Notation four := (N * N * N * N)%type (only parsing).

(** The body of the loop (MurmurHash3.cpp:180-194). *)
Definition step128 (h k : four) : four :=
  let '(h1, h2, h3, h4) := h in
  let '(k1, k2, k3, k4) := k in
  let h1 := stir32 (N.lxor h1 (scramble32 k1 c1_128 15 c2_128)) 19 h2 1444728091 in    (* 0x561ccd1b *)
  let h2 := stir32 (N.lxor h2 (scramble32 k2 c2_128 16 c3_128)) 17 h3 197830471 in     (* 0x0bcaa747 *)
  let h3 := stir32 (N.lxor h3 (scramble32 k3 c3_128 17 c4_128)) 15 h4 2530024501 in    (* 0x96cd1c35 *)
  let h4 := stir32 (N.lxor h4 (scramble32 k4 c4_128 18 c1_128)) 13 h1 850148119 in     (* 0x32ac3b17 *)
  (h1, h2, h3, h4).

(** for(int i = -nblocks; i; i++) (MurmurHash3.cpp:173-195). *)
Fixpoint loop3_128 (fuel : nat) (m : machine) (blocks : N) (i : Z) (h : four) : reading four :=
  match fuel with
  | O => OOF
  | S fuel' =>
      if (i =? 0)%Z then yield h
      else if (0 <? i)%Z then UB
      else
        let! k1 := read32 m (index blocks 4 (i * 4 + 0)) in
        let! k2 := read32 m (index blocks 4 (i * 4 + 1)) in
        let! k3 := read32 m (index blocks 4 (i * 4 + 2)) in
        let! k4 := read32 m (index blocks 4 (i * 4 + 3)) in
        loop3_128 fuel' m blocks (i + 1) (step128 h (k1, k2, k3, k4))
  end.

(** [h1 += h2; h1 += h3; h1 += h4; h2 += h1; h3 += h1; h4 += h1;]
    (MurmurHash3.cpp:238-239, 246-247). *)
Definition spread128 (h : four) : four :=
  let '(h1, h2, h3, h4) := h in
  let h1 := add32 (add32 (add32 h1 h2) h3) h4 in
  (h1, add32 h2 h1, add32 h3 h1, add32 h4 h1).

(** The finalization (MurmurHash3.cpp:236-247). *)
Definition final128 (h : four) (len : N) : four :=
  let '(h1, h2, h3, h4) := h in
  let '(h1, h2, h3, h4) := spread128 (N.lxor h1 len, N.lxor h2 len, N.lxor h3 len, N.lxor h4 len) in
  spread128 (fmix32 h1, fmix32 h2, fmix32 h3, fmix32 h4).

(** MurmurHash3_x86_128 (MurmurHash3.cpp:152-253): what is stored at [out].  The
    switch runs through the cases from [len & 15] down. *)
Definition MurmurHash3_x86_128 (m : machine) (key : N) (len : Z) (seed : N) : reading four :=
  let nblocks := Z.quot len 16 in
  let blocks := index key 16 nblocks in
  let! (h1, h2, h3, h4) := loop3_128 (rounds len) m blocks (- nblocks) (seed, seed, seed, seed) in
  let n := Z.to_nat (len mod 16) in
  let! k4 := gather shl32 m (blocks + 12) (n - 12) 0 in
  let h4 := if Nat.ltb 12 n then N.lxor h4 (scramble32 k4 c4_128 18 c1_128) else h4 in
  let! k3 := gather shl32 m (blocks + 8) (Nat.min 4 (n - 8)) 0 in
  let h3 := if Nat.ltb 8 n then N.lxor h3 (scramble32 k3 c3_128 17 c4_128) else h3 in
  let! k2 := gather shl32 m (blocks + 4) (Nat.min 4 (n - 4)) 0 in
  let h2 := if Nat.ltb 4 n then N.lxor h2 (scramble32 k2 c2_128 16 c3_128) else h2 in
  let! k1 := gather shl32 m blocks (Nat.min 4 n) 0 in
  let h1 := if Nat.ltb 0 n then N.lxor h1 (scramble32 k1 c1_128 15 c2_128) else h1 in
  yield (final128 (h1, h2, h3, h4) (uint32 len)).

(** MurmurHash3_x64_128: the constants (MurmurHash3.cpp:267-268). *)
Definition c1_64 : N := 9782798678568883157.    (* 0x87c37b91114253d5 *)
Definition c2_64 : N := 5545529020109919103.    (* 0x4cf5ad432745937f *)

(** The body of the loop (MurmurHash3.cpp:280-286). *)
Definition step64 (h k : N * N) : N * N :=
  let '(h1, h2) := h in
  let '(k1, k2) := k in
  let h1 := stir64 (N.lxor h1 (scramble64 k1 c1_64 31 c2_64)) 27 h2 1390208809 in    (* 0x52dce729 *)
  let h2 := stir64 (N.lxor h2 (scramble64 k2 c2_64 33 c1_64)) 31 h1 944331445 in     (* 0x38495ab5 *)
  (h1, h2).

(** for(int i = 0; i < nblocks; i++) (MurmurHash3.cpp:275-287). *)
Fixpoint loop3_64 (fuel : nat) (m : machine) (blocks : N) (nblocks i : Z) (h : N * N) : reading (N * N) :=
  match fuel with
  | O => OOF
  | S fuel' =>
      if (i <? nblocks)%Z then
        let! k1 := read64 m (index blocks 8 (i * 2 + 0)) in
        let! k2 := read64 m (index blocks 8 (i * 2 + 1)) in
        loop3_64 fuel' m blocks nblocks (i + 1) (step64 h (k1, k2))
      else yield h
  end.

Definition spread64 (h : N * N) : N * N :=
  let '(h1, h2) := h in let h1 := add64 h1 h2 in (h1, add64 h2 h1).

(** The finalization (MurmurHash3.cpp:322-331). *)
Definition final64 (h : N * N) (len : N) : N * N :=
  let '(h1, h2) := h in
  let '(h1, h2) := spread64 (N.lxor h1 len, N.lxor h2 len) in
  spread64 (fmix64 h1, fmix64 h2).

(** MurmurHash3_x64_128 (MurmurHash3.cpp:258-335). *)
Definition MurmurHash3_x64_128 (m : machine) (key : N) (len : Z) (seed : N) : reading (N * N) :=
  let nblocks := Z.quot len 16 in
  let! (h1, h2) := loop3_64 (rounds len) m key nblocks 0 (seed, seed) in
  let tail := index key 16 nblocks in
  let n := Z.to_nat (len mod 16) in
  let! k2 := gather shl64 m (tail + 8) (n - 8) 0 in
  let h2 := if Nat.ltb 8 n then N.lxor h2 (scramble64 k2 c2_64 33 c1_64) else h2 in
  let! k1 := gather shl64 m tail (Nat.min 8 n) 0 in
  let h1 := if Nat.ltb 0 n then N.lxor h1 (scramble64 k1 c1_64 31 c2_64) else h1 in
  yield (final64 (h1, h2) (uint64 len)).
