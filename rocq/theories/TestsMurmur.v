(** * TestsMurmur: a check of the models of the hash functions. *)
From Coq Require Import FMapPositive.
From Verif Require Import Base ModelHash ModelMurmur.
Local Open Scope N_scope.

(** The verification values of SMHasher, the test suite these functions come from:
    a check of the model, and of the hash that the library uses. *)
Fixpoint stored_bytes (n : nat) (x : N) : list N := match n with O => [] | S n' => x mod 256 :: stored_bytes n' (x / 256) end.
Definition verification (hash : list N -> N -> list N) : N :=
  let key i := map N.of_nat (seq 0 i) in
  let hashes := flat_map (fun i => hash (key i) (256 - N.of_nat i)) (seq 0 256) in
  little_endian (firstn 4 (hash hashes 0)).
Definition table (key : list N) : machine :=
  let t := snd (fold_left (fun '(i, t) b => (Pos.succ i, PositiveMap.add i b t)) key (1%positive, PositiveMap.empty N)) in
  Machine false (fun a => match PositiveMap.find (N.succ_pos a) t with Some b => b | None => 0 end).
Definition of_key {A} (f : machine -> N -> Z -> N -> reading A) (out : A -> list N) (key : list N) (seed : N) : list N :=
  match f (table key) 0 (Z.of_nat (length key)) seed with Ok (a, _) => out a | _ => [] end.

Example C88_verification :
  verification (of_key MurmurHash2 (stored_bytes 4)) = 663112734 /\            (* 0x27864C1E *)
  verification (of_key MurmurHash2A (stored_bytes 4)) = 2143110038 /\          (* 0x7FBD4396 *)
  verification (of_key MurmurHash64B (stored_bytes 8)) = 3713235973 /\         (* 0xDD537C05 *)
  verification (of_key MurmurHashNeutral2 (stored_bytes 4)) = 663112734 /\
  verification (of_key MurmurHashAligned2 (stored_bytes 4)) = 663112734 /\
  verification (of_key MurmurHash3_x86_32 (stored_bytes 4)) = 2968878819 /\    (* 0xB0F57EE3 *)
  verification (of_key MurmurHash3_x86_128 (fun '(a, b, c, d) => stored_bytes 4 a ++ stored_bytes 4 b ++ stored_bytes 4 c ++ stored_bytes 4 d))
    = 3018647082 /\                                                            (* 0xB3ECE62A *)
  verification (of_key MurmurHash3_x64_128 (fun '(a, b) => stored_bytes 8 a ++ stored_bytes 8 b)) = 1669642857 /\   (* 0x6384BA69 *)
  verification (fun key seed => stored_bytes 8 (murmur64a key seed)) = 520960004.   (* 0x1F0D3804 *)
Proof. vm_compute. repeat split. Qed.
