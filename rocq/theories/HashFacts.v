(** * HashFacts: hash codes of strings. *)
From Verif Require Import Base ModelDistance ModelHash.
Local Open Scope nat_scope.

Definition short_key (k : key) : Prop :=
  (N.of_nat (length (fst k)) <= INT_MAX)%N /\ (N.of_nat (length (snd k)) <= INT_MAX)%N.

Lemma int_of_short n : (n <= INT_MAX)%N -> int_of n = Z.of_N n.
Proof.
  unfold int_of, INT_MAX. intros L. rewrite N.mod_small by lia. destruct (N.ltb_spec n (2 ^ 31)); auto. lia.
Qed.
Lemma str_hash_short u seed : (N.of_nat (length u) <= INT_MAX)%N -> str_hash u seed = Ok (murmur64a (map uchar u) seed).
Proof.
  intros L. unfold str_hash. rewrite int_of_short by auto. unfold INT_MAX in L.
  destruct (Z.leb_spec (Z.of_N (N.of_nat (length u))) (-8)); [lia|].
  destruct (Z.leb_spec 0 (Z.of_N (N.of_nat (length u)))); [|lia].
  rewrite Z.mod_small by lia. rewrite N2Z.id, nat_N_Z, Nat2Z.id, firstn_all. unfold murmur64a. now rewrite map_length.
Qed.
Lemma pair_hash_short k : short_key k -> exists code, pair_hash k = Ok code.
Proof. intros [A B]. unfold pair_hash. rewrite str_hash_short by auto. cbn [rbind]. rewrite str_hash_short by auto. eauto. Qed.

Lemma int_of_long n : (2 ^ 31 <= n <= 2 ^ 32 - 8)%N -> (int_of n <= -8)%Z.
Proof. intros [A B]. unfold int_of. rewrite N.mod_small by lia. destruct (N.ltb_spec n (2 ^ 31)); lia. Qed.
Lemma str_hash_long u seed : (2 ^ 31 <= N.of_nat (length u) <= 2 ^ 32 - 8)%N -> str_hash u seed = UB.
Proof.
  intros L. apply int_of_long in L. unfold str_hash. destruct (Z.leb_spec (int_of (N.of_nat (length u))) (-8)); auto. lia.
Qed.

