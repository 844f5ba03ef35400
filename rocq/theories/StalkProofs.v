(** * StalkProofs: comparisons of nodes while a term of equal characters is added. *)
From Coq Require Import Sorting.Permutation.
From Verif Require Import Base Spec ModelHash ModelDawg ModelUseCost ModelMatchCost SpecDawg SpecCost TreeProofs HeapProofs BuildProofs DestroyProofs
  BuildCostProofs UseCostProofs MatchCostProofs.
Local Open Scope nat_scope.

Fixpoint stalk (c : char) (i : nat) : tree :=
  match i with O => T true [] | S i' => T false [(c, stalk c i')] end.

Lemma trie_stalk : forall c n, trie [repeat c n] = stalk c n.
Proof.
  intros c n. unfold trie, trie_from. cbn [fold_left]. induction n as [|n IH]; [reflexivity|]. cbn [repeat stalk]. rewrite <- IH. reflexivity.
Qed.

Lemma stalk_has : forall c n w, has (stalk c n) w -> exists i, i <= n /\ length w = i /\ sub (stalk c n) w = stalk c (n - i).
Proof.
  intros c. induction n as [|n IH]; intros [|d w] H; cbn [has stalk tedges edge_get] in H; try (exists 0; cbn; rewrite ?Nat.sub_0_r; split; [lia|split; reflexivity]).
  - destruct H.
  - cbn [sub stalk]. unfold tget. cbn [tedges edge_get]. destruct (ceqb d c); [|destruct H]. destruct (IH w H) as (i & Li & Lw & E).
    exists (S i). split; [lia|]. split; [cbn; lia|]. exact E.
Qed.

Lemma stalk_sub : forall c i n, i <= n -> has (stalk c n) (repeat c i) /\ sub (stalk c n) (repeat c i) = stalk c (n - i).
Proof.
  intros c. induction i as [|i IH]; intros [|n] L; try lia; try (split; [exact Logic.I|reflexivity]).
  cbn [repeat has sub stalk tedges edge_get]. unfold tget. cbn [tedges edge_get]. rewrite ceqb_refl. apply IH. lia.
Qed.

Lemma stalk_inj : forall c i j, stalk c i = stalk c j -> i = j.
Proof. intros c. induction i as [|i IH]; intros [|j] E; cbn in E; try discriminate; [reflexivity|]. injection E as E. f_equal. now apply IH. Qed.

Lemma stalk_log : forall c i j, length (snd (tlog (stalk c i) (stalk c j))) = S (Nat.min i j).
Proof.
  intros c. induction i as [|i IH]; intros [|j]; try reflexivity. cbn [stalk tlog tfin tedges length]. cbn [Bool.eqb Nat.eqb negb tlog_each edge_get].
  rewrite ceqb_refl. specialize (IH j). destruct (tlog (stalk c i) (stalk c j)) as [[|] l]; cbn [snd length] in *; rewrite ?app_length, map_length; cbn [length]; lia.
Qed.

(** ** The codes come back *)
Definition code (c : char) (i : nat) : N := thash (stalk c i).

Lemma code_next : forall c i j, (code c i mod 256 = code c j mod 256)%N -> code c (S i) = code c (S j).
Proof.
  intros c i j E. unfold code in *. cbn [stalk thash fold_left fst snd]. f_equal.
  rewrite (murmur_key_low (thash (stalk c i))), (murmur_key_low (thash (stalk c j))), E. reflexivity.
Qed.

Lemma pigeons : forall (f : nat -> N) l, NoDup l -> NoDup (map f l) \/ exists a b, In a l /\ In b l /\ a <> b /\ f a = f b.
Proof.
  intros f. induction l as [|x l IH]; intros N; [left; constructor|]. inversion N as [|? ? Nx N']; subst.
  destruct (IH N') as [M|(a & b & Ja & Jb & D & E)]; [|right; exists a, b; cbn; auto].
  destruct (in_dec N.eq_dec (f x) (map f l)) as [J|J].
  - apply in_map_iff in J. destruct J as (y & E & J). right. exists x, y. split; [now left|]. split; [now right|]. split; [congruence|auto].
  - left. cbn. now constructor.
Qed.

Lemma code_period : forall c, exists p P, p <= 256 /\ 1 <= P <= 256 /\ forall i, p <= i -> code c (i + P) = code c i.
Proof.
  intros c. destruct (pigeons (fun i => code c i mod 256)%N (seq 0 257) (seq_NoDup _ _)) as [N|(a & b & Ja & Jb & D & E)].
  - exfalso. assert (I : incl (map (fun i => code c i mod 256)%N (seq 0 257)) (map N.of_nat (seq 0 256))).
    { intros x J. apply in_map_iff in J. destruct J as (i & <- & _). apply in_map_iff. exists (N.to_nat (code c i mod 256)). split; [apply N2Nat.id|].
      apply in_seq. pose proof (N.mod_lt (code c i) 256 ltac:(discriminate)). lia. }
    pose proof (NoDup_incl_length N I) as L. rewrite !map_length, !seq_length in L. lia.
  - apply in_seq in Ja. apply in_seq in Jb.
    assert (X : exists a b, a < b <= 256 /\ (code c a mod 256 = code c b mod 256)%N).
    { destruct (Nat.lt_ge_cases a b); [exists a, b|exists b, a]; split; auto; lia. }
    clear a b Ja Jb D E. destruct X as (a & b & L & E). exists (S a), (b - a). split; [lia|]. split; [lia|].
    assert (Y : forall k, code c (S a + k + (b - a)) = code c (S a + k)).
    { induction k as [|k IH].
      - rewrite Nat.add_0_r. replace (S a + (b - a)) with (S b) by lia. symmetry. now apply code_next.
      - replace (S a + S k + (b - a)) with (S (S a + k + (b - a))) by lia. replace (S a + S k) with (S (S a + k)) by lia. apply code_next. now rewrite IH. }
    intros i Hi. replace i with (S a + (i - S a)) by lia. apply Y.
Qed.

Lemma code_far : forall c p P, (forall i, p <= i -> code c (i + P) = code c i) -> forall k i, p <= i -> code c (i + k * P) = code c i.
Proof.
  intros c p P H. induction k as [|k IH]; intros i Hi; [now rewrite Nat.add_0_r|].
  replace (i + S k * P) with ((i + k * P) + P) by lia. rewrite H by lia. now apply IH.
Qed.

(** ** Sums *)
Lemma sum_incl : forall (f : nat -> nat) L M, NoDup L -> incl L M -> list_sum (map f L) <= list_sum (map f M).
Proof.
  intros f. induction L as [|x L IH]; intros M N I; [cbn; lia|]. inversion N as [|? ? Nx N']; subst.
  destruct (in_split x M (I x (or_introl eq_refl))) as (a & b & ->).
  assert (I' : incl L (a ++ b)).
  { intros y J. specialize (I y (or_intror J)). apply in_app_iff in I. apply in_or_app. destruct I as [I|[<-|I]]; auto. contradiction. }
  specialize (IH _ N' I'). rewrite !map_app, !list_sum_app in *. cbn [map]. unfold list_sum in *. cbn [fold_right]. lia.
Qed.

Lemma sum_least : forall (f : nat -> nat) L v, (forall x, In x L -> v <= f x) -> length L * v <= list_sum (map f L).
Proof.
  intros f. induction L as [|x L IH]; intros v H; [cbn; lia|]. cbn [map length]. unfold list_sum in *. cbn [fold_right].
  pose proof (H x (or_introl eq_refl)). specialize (IH v (fun y J => H y (or_intror J))). lia.
Qed.

Lemma list_sum_perm : forall a b, Permutation a b -> list_sum a = list_sum b.
Proof. intros a b P. unfold list_sum. induction P; cbn; lia. Qed.

Lemma pairs_seen : forall g L s s', Permutation s s' -> pairs g s L = pairs g s' L.
Proof.
  intros g. induction L as [|t L IH]; intros s s' P; [reflexivity|]. cbn [pairs]. f_equal; [apply list_sum_perm; now apply Permutation_map|].
  apply IH. now apply Permutation_app_tail.
Qed.

Lemma pairs_perm : forall g (S : tree -> Prop), (forall x y, S x -> S y -> g x y = g y x) ->
  forall L L', Permutation L L' -> (forall x, In x L -> S x) -> forall s, pairs g s L = pairs g s L'.
Proof.
  intros g S Sy L L' P. induction P as [|x L L' P IH|x y L|L1 L2 L3 P1 IH1 P2 IH2]; intros H s; [reflexivity| | |].
  - cbn [pairs]. f_equal. apply IH. intros z J. apply H. now right.
  - cbn [pairs]. rewrite !map_app, !list_sum_app. cbn [map]. unfold list_sum. cbn [fold_right].
    rewrite (Sy x y) by (apply H; cbn; auto). rewrite (pairs_seen g L ((s ++ [x]) ++ [y]) ((s ++ [y]) ++ [x])); [lia|].
    rewrite <- !app_assoc. cbn [app]. apply Permutation_app_head. apply perm_swap.
  - rewrite IH1 by auto. apply IH2. intros z J. apply H. eapply Permutation_in; [apply Permutation_sym; exact P1|exact J].
Qed.

Lemma pairs_seq : forall g (f : nat -> tree) n, pairs g [] (map f (seq 0 n)) = list_sum (map (fun i => list_sum (map (fun j => g (f i) (f j)) (seq 0 i))) (seq 0 n)).
Proof.
  intros g f. induction n as [|n IH]; [reflexivity|]. rewrite seq_S, !map_app, pairs_app, list_sum_app, IH. cbn [app map pairs plus].
  unfold list_sum. cbn [fold_right]. rewrite map_map. lia.
Qed.

(** ** The clashes of stalks *)
Lemma clash_stalk : forall c i j, clash (stalk c i) (stalk c j) = if N.eqb (code c j) (code c i) then S (Nat.min i j) else 0.
Proof. intros. unfold clash. fold (code c i) (code c j). now rewrite stalk_log. Qed.

Lemma stalk_clashes : forall c k n, 768 * k <= n -> 256 * k * (256 * k) * k <= pairs clash [] (map (stalk c) (seq 0 n)).
Proof.
  intros c k n L. destruct k as [|k0]; [lia|]. set (k := S k0) in *. assert (Hk : 1 <= k) by (unfold k; lia). clearbody k. clear k0.
  rewrite pairs_seq. destruct (code_period c) as (p & P & Lp & LP & Per).
  assert (Far := code_far c p P Per).
  set (row := fun i => list_sum (map (fun j => clash (stalk c i) (stalk c j)) (seq 0 i))).
  assert (Row : forall i, 512 * k <= i -> k * (256 * k) <= row i).
  { intros i Hi. unfold row. set (js := map (fun a => i - a * P) (seq 1 k)).
    assert (B : forall a, In a (seq 1 k) -> a * P <= 256 * k /\ 1 <= a * P).
    { intros a J. apply in_seq in J. split; [|nia]. transitivity (k * 256); [apply Nat.mul_le_mono; lia|lia]. }
    assert (Nd : NoDup js).
    { unfold js. assert (X : forall l, NoDup l -> incl l (seq 1 k) -> NoDup (map (fun a => i - a * P) l)).
      { induction l as [|a l IH]; intros N I; cbn; constructor; inversion N; subst; [|apply IH; auto; intros y J; apply I; now right].
        intros J. apply in_map_iff in J. destruct J as (b & E & J). destruct (B a (I a (or_introl eq_refl))), (B b (I b (or_intror J))).
        assert (a * P = b * P) by lia. assert (a = b) by nia. congruence. }
      apply X; [apply seq_NoDup|apply incl_refl]. }
    assert (Ic : incl js (seq 0 i)).
    { intros j J. unfold js in J. apply in_map_iff in J. destruct J as (a & <- & J). destruct (B a J). apply in_seq. lia. }
    etransitivity; [|apply (sum_incl (fun j => clash (stalk c i) (stalk c j)) js (seq 0 i) Nd Ic)].
    replace k with (length js) at 1 by (unfold js; now rewrite map_length, seq_length).
    apply sum_least. intros j J. unfold js in J. apply in_map_iff in J. destruct J as (a & <- & J). destruct (B a J) as (B1 & B2).
    rewrite clash_stalk. replace (code c i) with (code c (i - a * P + a * P)) by (f_equal; lia). rewrite Far by lia. rewrite N.eqb_refl. lia. }
  etransitivity; [|apply (sum_incl row (seq (512 * k) (256 * k)) (seq 0 n) (seq_NoDup _ _))].
  - transitivity (length (seq (512 * k) (256 * k)) * (k * (256 * k))); [rewrite seq_length, (Nat.mul_comm k (256 * k)), Nat.mul_assoc; lia|].
    apply sum_least. intros i J. apply in_seq in J. apply Row. lia.
  - intros i J. apply in_seq in J. apply in_seq. lia.
Qed.

Lemma stalk_trees : forall c n R, NoDup R -> (forall r, In r R <-> exists w, w <> [] /\ has (trie [repeat c n]) w /\ sub (trie [repeat c n]) w = r) ->
  Permutation R (map (stalk c) (seq 0 n)).
Proof.
  intros c n R ND HR. rewrite trie_stalk in HR. apply NoDup_Permutation; [exact ND| |].
  - apply FinFun.Injective_map_NoDup; [intros i j; apply stalk_inj|apply seq_NoDup].
  - intros r. rewrite HR, in_map_iff. split.
    + intros (w & Nw & Hw & <-). destruct (stalk_has _ _ _ Hw) as (i & Li & Lw & ->). exists (n - i). split; [reflexivity|].
      apply in_seq. destruct w; [congruence|]. cbn in Lw. lia.
    + intros (i & <- & J). apply in_seq in J. destruct (stalk_sub c (n - i) n) as (Hh & Hs); [lia|]. exists (repeat c (n - i)).
      split; [destruct (n - i) eqn:En; [lia|discriminate]|]. split; [exact Hh|]. rewrite Hs. f_equal. lia.
Qed.
