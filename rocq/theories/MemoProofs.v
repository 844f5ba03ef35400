(** * MemoProofs: the hash table implements the memo. *)
From Coq Require Import Sorting.Permutation.
From Verif Require Import Base Spec ModelDistance ModelHash ModelMemo SpecDistance SpecCost HashFacts DistProofs DistFacts CostProofs.
Local Open Scope nat_scope.

(** ** Tables *)
Definition entries (t : buckets) : list (key * nat) := concat t.
Definition placed (t : buckets) : Prop :=
  t <> [] /\ forall i b k d, nth_error t i = Some b -> In (k, d) b -> exists code, pair_hash k = Ok code /\ bucket_of t code = i.
Definition table_ok (t : buckets) : Prop := placed t /\ NoDup (map fst (entries t)).

Lemma bucket_lt t code : t <> [] -> bucket_of t code < length t.
Proof. intros N. unfold bucket_of. assert (0 < length t) by (destruct t; [congruence|cbn; lia]). pose proof (N.mod_lt code (N.of_nat (length t))). lia. Qed.

Lemma at_bucket_length f t : forall i, length (at_bucket f t i) = length t.
Proof. induction t as [|b t IH]; intros [|i]; cbn; auto. Qed.
Lemma at_bucket_nth f t : forall i j, nth_error (at_bucket f t i) j = if i =? j then option_map f (nth_error t j) else nth_error t j.
Proof. induction t as [|b t IH]; intros [|i] [|j]; cbn; auto. destruct (i =? j); auto. Qed.
Lemma at_bucket_entries e t : forall i, i < length t -> Permutation (entries (at_bucket (cons e) t i)) (e :: entries t).
Proof.
  unfold entries. induction t as [|b t IH]; intros [|i] L; cbn in *; try lia; auto.
  rewrite (IH i) by lia. symmetry. apply Permutation_middle.
Qed.
Lemma at_bucket_of f t i code : bucket_of (at_bucket f t i) code = bucket_of t code.
Proof. unfold bucket_of. now rewrite at_bucket_length. Qed.
Lemma at_bucket_ne f t i : t <> [] -> at_bucket f t i <> [].
Proof. destruct t, i; cbn; congruence. Qed.

Lemma find_in_None k b : find_in k b = None <-> ~ In k (map fst b).
Proof.
  induction b as [|[k' d] b IH]; cbn [find_in map In fst]; [tauto|]. destruct (key_eqb k k') eqn:E.
  - apply key_eqb_eq in E. split; [discriminate|]. intros H. exfalso. auto.
  - rewrite IH. split; [intros H [->|I]; auto|tauto]. rewrite (proj2 (key_eqb_eq k k) eq_refl) in E. discriminate.
Qed.
Lemma find_in_Some k b d : NoDup (map fst b) -> (find_in k b = Some d <-> In (k, d) b).
Proof.
  induction b as [|[k' d'] b IH]; cbn [find_in map In fst]; intros N; [split; [discriminate|tauto]|].
  inversion N as [|? ? Nk Nb]; subst. destruct (key_eqb k k') eqn:E.
  - apply key_eqb_eq in E. subst k'. split; [intros [= ->]; auto|]. intros [[= ->]|I]; auto.
    exfalso. apply Nk. apply in_map_iff. exists (k, d). auto.
  - rewrite (IH Nb). split; [auto|]. intros [[= -> _]|I]; auto. rewrite (proj2 (key_eqb_eq k k) eq_refl) in E. discriminate.
Qed.
Lemma find_perm k a b : Permutation a b -> NoDup (map fst a) -> find_in k a = find_in k b.
Proof.
  intros P N. assert (N' : NoDup (map fst b)) by (eapply Permutation_NoDup; [apply Permutation_map; exact P|auto]).
  destruct (find_in k a) as [d|] eqn:E.
  - symmetry. apply find_in_Some; auto. apply find_in_Some in E; auto. eapply Permutation_in; eauto.
  - symmetry. apply find_in_None. apply find_in_None in E. intros I. apply E. eapply Permutation_in; [symmetry; apply Permutation_map; exact P|auto].
Qed.

(** Looking into one bucket is looking everywhere. *)
Lemma find_bucket t k code : placed t -> pair_hash k = Ok code ->
  find_in k (nth (bucket_of t code) t []) = find_in k (entries t).
Proof.
  intros [Ne P] H. pose proof (bucket_lt t code Ne) as L. set (i := bucket_of t code) in *.
  assert (Q : forall j b, nth_error t j = Some b -> j <> i -> find_in k b = None).
  { intros j b Nj D. apply find_in_None. intros I. apply in_map_iff in I. destruct I as ([k' d] & E & I). cbn in E. subst k'.
    destruct (P _ _ _ _ Nj I) as (c & Hc & B). rewrite H in Hc. injection Hc as <-. auto. }
  clearbody i. clear P H Ne. unfold entries.
  assert (App : forall a b, find_in k (a ++ b) = match find_in k a with Some d => Some d | None => find_in k b end).
  { induction a as [|[k' d] a IH]; intros b; cbn; auto. destruct (key_eqb k k'); auto. }
  revert i L Q. induction t as [|b t IH]; intros i L Q; [cbn in L; lia|]. cbn [concat]. rewrite App. destruct i as [|i].
  - cbn [nth]. destruct (find_in k b) eqn:E; auto.
    assert (Z : forall j b', nth_error t j = Some b' -> find_in k b' = None) by (intros j b' Nj; apply (Q (S j) b' Nj); lia).
    clear -Z App. symmetry. induction t as [|b' t IH]; auto. cbn. rewrite App, (Z 0 b' eq_refl). apply IH. intros j b'' Nj. apply (Z (S j) b'' Nj).
  - cbn [nth]. rewrite (Q 0 b eq_refl) by lia. cbn in L. apply IH; [lia|]. intros j b' Nj D. apply (Q (S j) b' Nj). lia.
Qed.

Lemma push_ok t k d code : placed t -> pair_hash k = Ok code ->
  exists t', push t (k, d) = Ok t' /\ placed t' /\ Permutation (entries t') ((k, d) :: entries t).
Proof.
  intros [Ne P] H. unfold push. cbn [fst]. rewrite H. cbn [rbind]. eexists. split; [reflexivity|]. split; [split|].
  - now apply at_bucket_ne.
  - intros i b k' d' N I. rewrite at_bucket_nth in N. destruct (Nat.eqb_spec (bucket_of t code) i) as [<-|D].
    + destruct (nth_error t (bucket_of t code)) as [b0|] eqn:Eb; [|discriminate]. cbn in N. injection N as <-.
      destruct I as [[= <- <-]|I]; [exists code; split; auto; now rewrite at_bucket_of|].
      destruct (P _ _ _ _ Eb I) as (c & Hc & B). exists c. rewrite at_bucket_of. auto.
    + destruct (P _ _ _ _ N I) as (c & Hc & B). exists c. rewrite at_bucket_of. auto.
  - apply at_bucket_entries. now apply bucket_lt.
Qed.

Lemma push_all_ok : forall es t, placed t -> (forall k d, In (k, d) es -> exists code, pair_hash k = Ok code) ->
  exists t', push_all t es = Ok t' /\ placed t' /\ Permutation (entries t') (es ++ entries t).
Proof.
  induction es as [|[k d] es IH]; intros t P H; cbn [push_all]; [exists t; auto|].
  destruct (H k d (or_introl eq_refl)) as (code & Hk). destruct (push_ok t k d code P Hk) as (t1 & -> & P1 & E1). cbn [rbind].
  destruct (IH t1 P1) as (t2 & -> & P2 & E2); [intros; eapply H; right; eauto|]. exists t2. split; auto. split; auto.
  rewrite E2, E1. cbn. symmetry. apply Permutation_middle.
Qed.

Lemma in_entries t k d : In (k, d) (entries t) -> exists i b, nth_error t i = Some b /\ In (k, d) b.
Proof. unfold entries. intros I. apply in_concat in I. destruct I as (b & Ib & I). apply In_nth_error in Ib. destruct Ib as (i & Ni). eauto. Qed.

Lemma rehash_ok n t : placed t -> exists t', rehash n t = Ok t' /\ placed t' /\ Permutation (entries t') (entries t).
Proof.
  intros P. unfold rehash. assert (Z : entries (repeat [] (S n)) = []) by (unfold entries; clear; induction n; cbn; auto).
  destruct (push_all_ok (concat t) (repeat [] (S n))) as (t' & E & P' & Pe).
  - split; [discriminate|]. intros i b k d N I. apply nth_error_In, repeat_spec in N. subst. destruct I.
  - intros k d I. apply in_entries in I. destruct I as (i & b & N & I). destruct (proj2 P _ _ _ _ N I) as (c & Hc & _). eauto.
  - exists t'. split; auto. split; auto. rewrite Pe, Z, app_nil_r. reflexivity.
Qed.

Lemma replace_keys k d b : map fst (replace_in k d b) = map fst b.
Proof. unfold replace_in. rewrite map_map. apply map_ext. intros [k' d']. cbn. destruct (key_eqb k k'); auto. Qed.
Lemma find_replace k d b k' : find_in k' (replace_in k d b) =
  if key_eqb k k' then match find_in k' b with Some _ => Some d | None => None end else find_in k' b.
Proof.
  induction b as [|[k0 d0] b IH]; cbn [find_in replace_in map fst]; [destruct (key_eqb k k'); auto|].
  change (map (fun e => if key_eqb k (fst e) then (fst e, d) else e) b) with (replace_in k d b).
  destruct (key_eqb k k0) eqn:E0; cbn [find_in]; rewrite IH; destruct (key_eqb k' k0) eqn:E1; auto.
  - apply key_eqb_eq in E0, E1. subst. now rewrite (proj2 (key_eqb_eq k0 k0) eq_refl).
  - destruct (key_eqb k k') eqn:E2; auto. apply key_eqb_eq in E1, E2. subst. rewrite (proj2 (key_eqb_eq k0 k0) eq_refl) in E0. discriminate.
Qed.
Lemma replace_entries k d t : forall i, map fst (entries (at_bucket (replace_in k d) t i)) = map fst (entries t).
Proof.
  unfold entries. induction t as [|b t IH]; intros [|i]; cbn; auto; rewrite !map_app; [now rewrite replace_keys|now rewrite IH].
Qed.

(** [t] holds what [m] holds. *)
Definition holds (t : buckets) (m : memo) : Prop := table_ok t /\ forall k, find_in k (entries t) = memo_get m k.

Lemma holds_new : holds new_buckets [].
Proof.
  split; [split; [split; [discriminate|]|constructor]|auto]. intros [|[|i]] b k d N I; cbn in N; try discriminate. injection N as <-. destruct I.
Qed.

Lemma get_ok t m k : holds t m -> short_key k -> table_get t k = Ok (memo_get m k).
Proof.
  intros [[P N] H] S. destruct (pair_hash_short k S) as (code & E). unfold table_get. rewrite E. cbn [rbind].
  now rewrite (find_bucket t k code P E), H.
Qed.

Lemma memo_get_set m k d k' : memo_get (memo_set m k d) k' = if key_eqb k k' then Some d else memo_get m k'.
Proof. reflexivity. Qed.

Lemma set_ok grow t m k d : holds t m -> short_key k ->
  exists t', table_set grow t k d = Ok t' /\ holds t' (memo_set m k d).
Proof.
  intros [[P N] H] S. destruct (pair_hash_short k S) as (code & E). unfold table_set. rewrite E. cbn [rbind].
  rewrite (find_bucket t k code P E). destruct (find_in k (entries t)) as [d0|] eqn:F.
  - eexists. split; [reflexivity|]. set (i := bucket_of t code). set (t' := at_bucket (replace_in k d) t i).
    assert (P' : placed t').
    { destruct P as [Ne P]. split; [now apply at_bucket_ne|]. intros j b k' d' Nj I. unfold t' in Nj. rewrite at_bucket_nth in Nj.
      destruct (Nat.eqb_spec i j) as [<-|D].
      - destruct (nth_error t i) as [b0|] eqn:Eb; [|discriminate]. cbn in Nj. injection Nj as <-.
        assert (I' : In k' (map fst b0)) by (rewrite <- (replace_keys k d); apply in_map_iff; exists (k', d'); auto).
        apply in_map_iff in I'. destruct I' as ([k1 d1] & Ek & I'). cbn in Ek. subst k1.
        destruct (P _ _ _ _ Eb I') as (c & Hc & B). exists c. unfold t'. rewrite at_bucket_of. auto.
      - destruct (P _ _ _ _ Nj I) as (c & Hc & B). exists c. unfold t'. rewrite at_bucket_of. auto. }
    split; [split; auto; unfold t'; now rewrite replace_entries|].
    intros k'. rewrite memo_get_set, <- H. destruct (pair_hash k') as [c'| |] eqn:E'.
    + rewrite <- (find_bucket t' k' c' P' E'), <- (find_bucket t k' c' P E'). unfold t'. rewrite at_bucket_of.
      destruct P as [Ne P]. pose proof (bucket_lt t c' Ne) as L'.
      assert (Nt : nth (bucket_of t c') (at_bucket (replace_in k d) t i) [] =
        if i =? bucket_of t c' then replace_in k d (nth (bucket_of t c') t []) else nth (bucket_of t c') t []).
      { apply nth_error_nth. rewrite at_bucket_nth. rewrite (nth_error_nth' t [] L'). destruct (i =? _); auto. }
      rewrite Nt. destruct (Nat.eqb_spec i (bucket_of t c')) as [Ei|Di].
      * rewrite find_replace. destruct (key_eqb k k') eqn:Ek; auto. apply key_eqb_eq in Ek. subst k'.
        rewrite E in E'. injection E' as <-. rewrite (find_bucket t k code (conj Ne P) E), F. auto.
      * destruct (key_eqb k k') eqn:Ek; auto. apply key_eqb_eq in Ek. subst k'. rewrite E in E'. injection E' as <-. contradiction.
    + assert (Z : forall tt, placed tt -> find_in k' (entries tt) = None).
      { intros tt [_ Pt]. apply find_in_None. intros I. apply in_map_iff in I. destruct I as ([k1 d1] & Ek & I). cbn in Ek. subst k1.
        apply in_entries in I. destruct I as (j & b & Nj & I). destruct (Pt _ _ _ _ Nj I) as (c & Hc & _). congruence. }
      rewrite !Z by auto. destruct (key_eqb k k') eqn:Ek; auto. apply key_eqb_eq in Ek. congruence.
    + assert (Z : forall tt, placed tt -> find_in k' (entries tt) = None).
      { intros tt [_ Pt]. apply find_in_None. intros I. apply in_map_iff in I. destruct I as ([k1 d1] & Ek & I). cbn in Ek. subst k1.
        apply in_entries in I. destruct I as (j & b & Nj & I). destruct (Pt _ _ _ _ Nj I) as (c & Hc & _). congruence. }
      rewrite !Z by auto. destruct (key_eqb k k') eqn:Ek; auto. apply key_eqb_eq in Ek. congruence.
  - assert (R : exists t1, match grow t with Some n => rehash n t | None => Ok t end = Ok t1 /\ placed t1 /\ Permutation (entries t1) (entries t)).
    { destruct (grow t) as [n|]; [now apply rehash_ok|eauto]. }
    destruct R as (t1 & -> & P1 & E1). cbn [rbind]. destruct (push_ok t1 k d code P1 E) as (t2 & -> & P2 & E2).
    exists t2. split; auto. assert (Pe : Permutation (entries t2) ((k, d) :: entries t)) by (rewrite E2; auto).
    assert (N2 : NoDup (map fst (entries t2))).
    { eapply Permutation_NoDup; [symmetry; apply Permutation_map; exact Pe|]. cbn. constructor; auto. now apply find_in_None. }
    split; [split; auto|]. intros k'. rewrite (find_perm k' _ _ Pe N2), memo_get_set. cbn [find_in]. rewrite H.
    replace (key_eqb k' k) with (key_eqb k k'); auto.
    destruct (key_eqb k k') eqn:A, (key_eqb k' k) eqn:B; auto; [apply key_eqb_eq in A|apply key_eqb_eq in B]; subst;
      rewrite (proj2 (key_eqb_eq _ _) eq_refl) in *; discriminate.
Qed.

(** ** Programs that use short keys only *)
Inductive short_prog {A : Type} : prog A -> Prop :=
| short_ret : forall x, short_prog (Ret x)
| short_get : forall k c, short_key k -> (forall o, short_prog (c o)) -> short_prog (GetM k c)
| short_set : forall k d c, short_key k -> short_prog c -> short_prog (SetM k d c)
| short_stuck : short_prog Stuck.

Lemma short_bind {A B} (p : prog A) (f : A -> prog B) : short_prog p -> (forall x, short_prog (f x)) -> short_prog (pbind p f).
Proof. intros S F. induction S; cbn; auto; constructor; auto. Qed.

Lemma hashed_ok grow {A} (p : prog A) : short_prog p -> forall t m, holds t m ->
  match run p m with
  | Ok (x, m') => exists t', run_hashed grow p t = Ok (x, t') /\ holds t' m'
  | _ => True
  end.
Proof.
  induction 1 as [x|k c K S IH|k d c K S IH|]; intros t m H; cbn [run run_hashed]; eauto.
  - rewrite (get_ok t m k H K). cbn [rbind]. now apply IH.
  - destruct (set_ok grow t m k d H K) as (t' & -> & H'). cbn [rbind]. now apply IH.
Qed.

Lemma suffix_length (p v : str) : suffix_of p v -> length p <= length v.
Proof. intros (u & ->). rewrite app_length. lia. Qed.

Lemma between_short alg : forall fuel v w, (N.of_nat (length v) <= INT_MAX)%N -> (N.of_nat (length w) <= INT_MAX)%N ->
  short_prog (between_fuel fuel alg v w).
Proof.
  induction fuel as [|fuel IH]; intros v w Lv Lw; cbn [between_fuel]; [constructor|].
  assert (K : short_key (symmetric_pair v w)) by (unfold symmetric_pair; destruct (str_ltb v w); split; auto).
  assert (Rs : forall d, short_prog (return_set (symmetric_pair v w) d)) by (intros d; constructor; auto; constructor).
  constructor; auto. intros [d|]; [constructor|]. destruct v as [|a s]; [apply Rs|]. destruct w as [|b t]; [apply Rs|].
  destruct (discard a s b t) as [[[a' x] b'] y] eqn:D. destruct (discard_suffix _ _ _ _ _ _ _ _ D) as [S1 S2].
  destruct (ceqb a' b'); [destruct x; apply Rs|].
  assert (C : forall p q, In (p, q) (recursive_calls alg a' x b' y) -> short_prog (between_fuel fuel alg p q)).
  { intros p q I. destruct (calls_suffix _ _ _ _ _ _ _ I) as [P Q]. apply suffix_length in P, Q, S1, S2. apply IH; lia. }
  generalize (@None nat). revert C. generalize (recursive_calls alg a' x b' y). intros cs C.
  induction cs as [|[p q] cs IHc]; intros mo; cbn [try_calls]; [destruct mo; [apply Rs|constructor]|].
  apply short_bind; [apply C; now left|]. intros d. destruct (0 =? d); [apply Rs|]. apply IHc. intros; apply C; now right.
Qed.

Lemma calls_short alg cs : (forall v w, In (v, w) cs -> short_key (v, w)) -> short_prog (calls alg cs).
Proof.
  induction cs as [|[v w] cs IH]; intros S; cbn [calls]; [constructor|].
  destruct (S v w (or_introl eq_refl)) as [Lv Lw]. apply short_bind; [now apply between_short|].
  intros d. apply short_bind; [apply IH; intros; apply S; now right|]. intros ds. constructor.
Qed.

Lemma run_no_UB {A} (p : prog A) : forall m, run p m <> UB.
Proof. induction p; intros m; cbn; auto; discriminate. Qed.
