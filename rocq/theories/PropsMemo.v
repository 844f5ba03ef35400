(** * PropsMemo: the hash table inside a distance function (C75). *)
From Coq Require Import Sorting.Permutation.
From Verif Require Import Base Spec ModelDistance ModelHash ModelMemo SpecDistance HashFacts DistProofs DistFacts DepthProofs MemoProofs.
Local Open Scope nat_scope.

(** Whatever calls are made on a new object, and whenever its hash table grows, the
    calls return the right distances, as long as no string is longer than
    INT_MAX; the table has no two entries for the same pair. *)
Theorem C75_hash_table : forall alg grow cs,
  (forall v w, In (v, w) cs -> (N.of_nat (length v) <= INT_MAX)%N /\ (N.of_nat (length w) <= INT_MAX)%N) ->
  exists ds t, run_hashed grow (calls alg cs) new_buckets = Ok (ds, t) /\ Forall2 (correct alg) cs ds /\
    NoDup (map fst (concat t)).
Proof.
  intros alg grow cs S. destruct (answers_correct alg cs) as (ds & (m & R) & C).
  pose proof (hashed_ok grow _ (calls_short alg cs S) _ _ holds_new) as H. rewrite R in H.
  destruct H as (t & E & [[_ N] _]). exists ds, t. auto.
Qed.
Print Assumptions C75_hash_table.

(** What the table holds at any time is what a plain map would hold: a call on
    a table that holds the same as a map leaves a table that holds the same as
    the map then does, and returns the same. *)
Theorem C75_refines : forall alg grow cs v w ds t m,
  (forall x y, In (x, y) (cs ++ [(v, w)]) -> (N.of_nat (length x) <= INT_MAX)%N /\ (N.of_nat (length y) <= INT_MAX)%N) ->
  run_hashed grow (calls alg cs) new_buckets = Ok (ds, t) -> run (calls alg cs) [] = Ok (ds, m) ->
  exists d t' m', run_hashed grow (between alg v w) t = Ok (d, t') /\ run (between alg v w) m = Ok (d, m') /\
    forall x y, (N.of_nat (length x) <= INT_MAX)%N -> (N.of_nat (length y) <= INT_MAX)%N ->
      table_get t' (symmetric_pair x y) = Ok (memo_get m' (symmetric_pair x y)).
Proof.
  intros alg grow cs v w ds t m S Rt Rm.
  assert (S1 : forall x y, In (x, y) cs -> short_key (x, y)) by (intros x y I; apply S, in_or_app; now left).
  pose proof (hashed_ok grow _ (calls_short alg cs S1) _ _ holds_new) as H. rewrite Rm in H.
  destruct H as (t0 & E & H). rewrite Rt in E. injection E as <-.
  destruct (S v w) as [Lv Lw]; [apply in_or_app; right; now left|].
  pose proof (hashed_ok grow _ (between_short alg (Datatypes.S (length v + length w)) v w Lv Lw) t m H) as K.
  destruct (between_depth alg (Datatypes.S (length v + length w)) (Datatypes.S (length v + length w)) v w m) as [_ No]; try lia.
  destruct (run (between_fuel (Datatypes.S (length v + length w)) alg v w) m) as [[d m']| |] eqn:R'; [|exfalso; eapply run_no_UB; eauto|congruence].
  destruct K as (t' & Et & H'). exists d, t', m'. split; auto. split; auto.
  intros x y Lx Ly. apply get_ok; auto. unfold symmetric_pair. destruct (str_ltb x y); split; auto.
Qed.
Print Assumptions C75_refines.

(** The length is cast to int: for strings of 2^31 up to 2^32 - 8 characters the
    hash function leaves the string, and every call is undefined behaviour. *)
Theorem C75_too_long_refuted : forall alg grow v w t,
  (2 ^ 31 <= N.of_nat (length v) <= 2 ^ 32 - 8)%N -> run_hashed grow (between alg v w) t = UB /\ run_hashed grow (between alg w v) t = UB.
Proof.
  assert (X : forall u v, (2 ^ 31 <= N.of_nat (length u) <= 2 ^ 32 - 8)%N \/ (2 ^ 31 <= N.of_nat (length v) <= 2 ^ 32 - 8)%N ->
    pair_hash (u, v) = UB).
  { intros u v [L|L]; unfold pair_hash; cbn [fst snd]; [now rewrite str_hash_long by auto|].
    destruct (str_hash u DEADBEEF) as [c| |] eqn:E; cbn [rbind]; auto; [now apply str_hash_long|].
    unfold str_hash in E. destruct (_ <=? _)%Z; discriminate. }
  intros alg grow v w t L. unfold between. cbn [between_fuel run_hashed]. unfold table_get.
  split; (assert (E : pair_hash (symmetric_pair v w) = UB /\ pair_hash (symmetric_pair w v) = UB);
    [unfold symmetric_pair; destruct (str_ltb v w), (str_ltb w v); auto|]; destruct E as [E1 E2]; rewrite ?E1, ?E2; reflexivity).
Qed.
Print Assumptions C75_too_long_refuted.

Example C75_too_long_case : exists v : str, (2 ^ 31 <= N.of_nat (length v) <= 2 ^ 32 - 8)%N.
Proof. exists (repeat "a"%char (N.to_nat (2 ^ 31))). rewrite repeat_length, N2Nat.id. split; [apply N.le_refl|now apply N.leb_le]. Qed.

(** Two calls, with all entries in one bucket, and with a table that grows
    before every insertion. *)
Example C75_case :
  let cs := [(lit "abc", lit "xbz"); (lit "xbz", lit "abc")] in
  (exists t, run_hashed (fun _ => None) (calls STANDARD cs) new_buckets = Ok ([2; 2], t) /\ length t = 1 /\ length (concat t) > 3) /\
  (exists t, run_hashed (fun t => Some (length t)) (calls STANDARD cs) new_buckets = Ok ([2; 2], t) /\ length t > 3).
Proof. split; eexists; (split; [vm_compute; reflexivity|]); [split|]; vm_compute; auto; lia. Qed.
