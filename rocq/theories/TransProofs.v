(** * Position transitions are sound and complete.

    A position (i, e) at depth [b] of the dictionary stands for: the rest of the
    query from index i must still be matched, e errors have been spent. *)
From Verif Require Export SpecLimits.
From Verif Require Import Base Spec AlignProofs ConsumeProofs ModelTransducer.

Definition LEN_MAX : N := 4611686018427387903%N.

Lemma manageable_len x n : manageable x n -> (N.of_nat (length x) <= LEN_MAX)%N.
Proof. intros (H & _). change (2 ^ 62)%N with 4611686018427387904%N in H. unfold LEN_MAX. lia. Qed.

(** ** Wrap-free arithmetic *)
Lemma wadd_small a b : (a + b < W)%N -> wadd a b = (a + b)%N.
Proof. intros H; unfold wadd; now apply N.mod_small. Qed.

Lemma wsub_small a b : (b <= a)%N -> (a < W)%N -> wsub a b = (a - b)%N.
Proof.
  intros H Ha; unfold wsub. replace (a + W - b)%N with ((a - b) + 1 * W)%N by lia.
  rewrite N.mod_add by (unfold W; lia). apply N.mod_small; lia.
Qed.

(** ** The characteristic vector *)
Lemma term_at_ok x i c : nth_error x (N.to_nat i) = Some c -> term_at x i = Ok c.
Proof.
  intros H. unfold term_at. assert (N.to_nat i < length x) by (apply nth_error_Some; congruence).
  destruct (N.ltb_spec i (N.of_nat (length x))); [|lia]. now rewrite H.
Qed.

Lemma cv_loop_ok c x : (N.of_nat (length x) <= LEN_MAX)%N ->
  forall steps i j, (N.to_nat (i + j) + steps <= length x) ->
  cv_loop c x steps i j = Ok (map (ceqb c) (firstn steps (skipn (N.to_nat (i + j)) x))).
Proof.
  intros Hx; induction steps as [|s IH]; intros i j H; [reflexivity|].
  cbn [cv_loop]. rewrite wadd_small by (unfold W, LEN_MAX in *; lia).
  destruct (nth_error x (N.to_nat (i + j))) as [d|] eqn:E.
  2:{ apply nth_error_None in E; lia. }
  rewrite (term_at_ok _ _ _ E). cbn [rbind]. rewrite IH by lia. cbn [rbind].
  replace (N.to_nat (i + (j + 1))) with (S (N.to_nat (i + j))) by lia.
  destruct (skipn (N.to_nat (i + j)) x) as [|d' y] eqn:Es.
  { apply skipn_nil_len in Es. lia. }
  apply nth_skipn in Es. destruct Es as [E1 E2]. rewrite E in E1; injection E1 as <-.
  rewrite E2. reflexivity.
Qed.

Definition cvec (c : char) (x : str) (k i : nat) : list bool :=
  map (ceqb c) (firstn k (skipn i x)).

Lemma characteristic_vector_ok c x k i : (N.of_nat (length x) <= LEN_MAX)%N -> (k <= INT_MAX)%N ->
  (i + k <= N.of_nat (length x))%N ->
  characteristic_vector c x k i = Ok (cvec c x (N.to_nat k) (N.to_nat i)).
Proof.
  intros Hx Hk H. unfold characteristic_vector.
  destruct (N.ltb_spec INT_MAX k); [lia|].
  rewrite cv_loop_ok by (auto; lia). rewrite N.add_0_r. reflexivity.
Qed.

Lemma cvec_length c x k i : i + k <= length x -> length (cvec c x k i) = k.
Proof. intros H; unfold cvec. rewrite map_length, firstn_length, skipn_length. lia. Qed.

Lemma nth_error_skipn {A} (x : list A) i h : nth_error (skipn i x) h = nth_error x (i + h).
Proof. revert x; induction i as [|i IH]; intros x; [reflexivity|]. destruct x; simpl; [destruct h; auto|auto]. Qed.

Lemma nth_error_firstn {A} (x : list A) k h : h < k -> nth_error (firstn k x) h = nth_error x h.
Proof.
  revert x h; induction k as [|k IH]; intros x h H; [lia|].
  destruct x; [destruct h; auto|]. destruct h; simpl; auto. apply IH; lia.
Qed.

Lemma cvec_nth c x k i h d : h < k -> nth_error x (i + h) = Some d ->
  nth_error (cvec c x k i) h = Some (ceqb c d).
Proof.
  intros Hh H. unfold cvec. rewrite nth_error_map, nth_error_firstn, nth_error_skipn, H by auto. reflexivity.
Qed.

Lemma cv_at_ok c x k i (h : N) d : i + k <= length x -> (N.to_nat h < k) ->
  nth_error x (i + N.to_nat h) = Some d -> cv_at (cvec c x k i) h = Ok (ceqb c d).
Proof.
  intros Hk Hh Hd. unfold cv_at. rewrite cvec_length by auto.
  destruct (N.ltb_spec h (N.of_nat k)); [|lia]. erewrite cvec_nth; eauto. reflexivity.
Qed.

(** ** index_of *)
Lemma index_of_loop_spec c x k i : i + k <= length x -> (N.of_nat (length x) <= LEN_MAX)%N ->
  forall steps (h j : N), N.to_nat (h + j) + steps <= k ->
  let y := skipn (i + N.to_nat h) x in
  (forall t, t < N.to_nat j -> nth_error y t <> Some c) ->
  (exists r, index_of_loop (cvec c x k i) steps h j = Ok r /\ (r < j + N.of_nat steps)%N /\ first_at y c (N.to_nat r)) \/
  (index_of_loop (cvec c x k i) steps h j = Ok SIZE_MAX /\
   forall t, t < N.to_nat j + steps -> nth_error y t <> Some c).
Proof.
  intros Hk Hx; induction steps as [|s IH]; intros h j H y Hy; cbn [index_of_loop].
  - right; split; auto. intros t Ht; apply Hy; lia.
  - rewrite wadd_small by (unfold W, LEN_MAX in *; lia).
    destruct (nth_error x (i + N.to_nat (h + j))) as [d|] eqn:E.
    2:{ apply nth_error_None in E; lia. }
    rewrite (cv_at_ok c x k i _ d Hk) by (auto; lia). cbn [rbind].
    assert (Ey : nth_error y (N.to_nat j) = Some d).
    { unfold y. rewrite nth_error_skipn, <- E. f_equal. lia. }
    destruct (ceqb c d) eqn:Ec.
    + apply ceqb_true in Ec; subst d. left. exists j; repeat split; auto; lia.
    + apply ceqb_false in Ec. rewrite wadd_small by (unfold W, LEN_MAX in *; lia).
      assert (Hy' : forall t, t < N.to_nat (j + 1) -> nth_error y t <> Some c).
      { intros t Ht. destruct (Nat.eq_dec t (N.to_nat j)) as [->|Hne]; [congruence|]. apply Hy; lia. }
      destruct (IH h (j + 1)%N ltac:(lia) Hy') as [(r & Hr & Hr1 & Hr2)|(Hr & Hr1)].
      * left; exists r; repeat split; auto; try lia; apply Hr2.
      * right; split; auto. intros t Ht; apply Hr1; lia.
Qed.

Lemma index_of_spec c x k i : i + k <= length x -> (N.of_nat (length x) <= LEN_MAX)%N ->
  forall (h K : N), N.to_nat h + N.to_nat K <= k ->
  let y := skipn (i + N.to_nat h) x in
  (exists r, index_of (cvec c x k i) K h = Ok r /\ (r < K)%N /\ first_at y c (N.to_nat r)) \/
  (index_of (cvec c x k i) K h = Ok SIZE_MAX /\
   forall t, t < N.to_nat K -> nth_error y t <> Some c).
Proof.
  intros Hk Hx h K H y. unfold index_of.
  destruct (index_of_loop_spec c x k i Hk Hx (N.to_nat K) h 0%N) as [(r & Hr & Hr1 & Hr2)|(Hr & Hr1)].
  - lia.
  - intros t Ht; lia.
  - left; exists r; repeat split; auto; try lia; apply Hr2.
  - right; split; auto.
Qed.

(** ** Positions *)
Definition ii (p : position) : nat := N.to_nat (ti p).
Definition ee (p : position) : nat := N.to_nat (ne p).

(** [acc alg x p u k]: from position [p] the continuation [u] of the dictionary
    term can be matched with at most [k] errors in total. *)
Definition acc (alg : algorithm) (x : str) (p : position) (u : str) (k : nat) : Prop :=
  if sp p then
    match alg with
    | STANDARD => False
    | TRANSPOSITION => exists c1 c2 y' u', skipn (ii p) x = c1 :: c2 :: y' /\ u = c1 :: u' /\
                         ee p <= k /\ cost_le alg (k - ee p) y' u'
    | MERGE_AND_SPLIT => exists c1 y' c u', skipn (ii p) x = c1 :: y' /\ u = c :: u' /\
                         ee p <= k /\ cost_le alg (k - ee p) y' u'
    end
  else ee p <= k /\ cost_le alg (k - ee p) (skipn (ii p) x) u.

Definition sacc (alg : algorithm) (x : str) (st : state) (u : str) (k : nat) : Prop :=
  exists p, In p st /\ acc alg x p u k.

(** Positions that can occur at depth [b]. *)
Definition valid (alg : algorithm) (x : str) (n : N) (b : nat) (p : position) : Prop :=
  ii p <= length x /\ (ne p <= n)%N /\ ee p <= ii p + b /\
  if sp p then
    alg <> STANDARD /\ 1 <= ee p /\ b <= ii p + ee p /\ ii p + 2 <= b + ee p /\
    ii p + (match alg with TRANSPOSITION => 2 | _ => 1 end) <= length x
  else b <= ii p + ee p /\ ii p <= b + ee p.

(** ** The window never cuts off characters that matter *)
Definition small_depth (b : nat) : Prop := (N.of_nat b < 4611686018427387904)%N.

Section Window.
Variables (alg : algorithm) (x : str) (n : N) (b : nat) (c : char) (off : N) (p : position).
Hypothesis Hx : (N.of_nat (length x) <= LEN_MAX)%N.
Hypothesis Hn : (n <= SIZE_MAX)%N.
Hypothesis Hb : small_depth b.
Hypothesis Hv : valid alg x n b p.
Hypothesis Hoff : (off <= ti p)%N.
Hypothesis Hbo : (N.of_nat b <= off + n)%N.

Definition wsize : N := query_k (query_a n) (N.of_nat (length x)) off.
Definition wvec : list bool := cvec c x (N.to_nat wsize) (N.to_nat off).

Lemma ti_le : (ti p <= N.of_nat (length x))%N.
Proof. destruct Hv as [H _]. unfold ii in H. lia. Qed.

Lemma wsize_spec : (off + wsize <= N.of_nat (length x))%N /\
  (wsize = N.of_nat (length x) - off \/ wsize = 2 * n + 1)%N.
Proof.
  pose proof ti_le. unfold wsize, query_k, query_a.
  rewrite wsub_small by (unfold W, LEN_MAX in *; lia).
  change (N.shiftr (SIZE_MAX - 1) 1) with 9223372036854775807%N.
  destruct (N.ltb_spec n 9223372036854775807) as [L|L].
  - rewrite N.shiftl_mul_pow2. change (2 ^ 1)%N with 2%N.
    rewrite N.mod_small by (unfold W; lia). rewrite wadd_small by (unfold W; lia).
    match goal with |- context [(?a <? ?b)%N] => destruct (N.ltb_spec a b) end; lia.
  - match goal with |- context [(?a <? ?b)%N] => destruct (N.ltb_spec a b) end;
      unfold SIZE_MAX, LEN_MAX in *; lia.
Qed.

Lemma wsize_le : (wsize <= 2 * n + 1)%N.
Proof.
  pose proof ti_le. unfold wsize, query_k, query_a.
  rewrite wsub_small by (unfold W, LEN_MAX in *; lia).
  change (N.shiftr (SIZE_MAX - 1) 1) with 9223372036854775807%N.
  destruct (N.ltb_spec n 9223372036854775807) as [L|L].
  - rewrite N.shiftl_mul_pow2. change (2 ^ 1)%N with 2%N.
    rewrite N.mod_small by (unfold W; lia). rewrite wadd_small by (unfold W; lia).
    match goal with |- context [(?a <? ?b)%N] => destruct (N.ltb_spec a b) end; lia.
  - match goal with |- context [(?a <? ?b)%N] => destruct (N.ltb_spec a b) end;
      unfold SIZE_MAX, LEN_MAX in *; lia.
Qed.

Lemma wvec_length : N.of_nat (length wvec) = wsize.
Proof.
  pose proof wsize_spec. unfold wvec. rewrite cvec_length by lia. lia.
Qed.

Lemma h_small : wsub (ti p) off = (ti p - off)%N.
Proof. pose proof ti_le. apply wsub_small; unfold W, LEN_MAX in *; lia. Qed.

Lemma win1_le : (wadd (ti p - off) 1 <=? wsize)%N = (ii p + 1 <=? length x).
Proof.
  pose proof ti_le. pose proof wsize_spec. destruct Hv as (H1 & H2 & H3 & H4).
  rewrite wadd_small by (unfold W, LEN_MAX in *; lia).
  unfold ii, ee in *. destruct (sp p); lia.
Qed.

Lemma win1_eq : (ne p < n)%N \/ sp p = true -> (wadd (ti p - off) 1 =? wsize)%N = (ii p + 1 =? length x).
Proof.
  intros He. pose proof ti_le. pose proof wsize_spec. destruct Hv as (H1 & H2 & H3 & H4).
  rewrite wadd_small by (unfold W, LEN_MAX in *; lia).
  unfold ii, ee in *. destruct (sp p); destruct He; try discriminate; lia.
Qed.

Lemma win2_le : (ne p < n)%N \/ sp p = true -> (wadd (ti p - off) 2 <=? wsize)%N = (ii p + 2 <=? length x).
Proof.
  intros He. pose proof ti_le. pose proof wsize_spec. destruct Hv as (H1 & H2 & H3 & H4).
  rewrite wadd_small by (unfold W, LEN_MAX in *; lia).
  unfold ii, ee in *. destruct (sp p); destruct He; try discriminate; lia.
Qed.

Lemma cv_head d y : skipn (ii p) x = d :: y -> cv_at wvec (ti p - off) = Ok (ceqb c d).
Proof.
  intros E. apply nth_skipn in E. destruct E as [E _].
  assert (ii p < length x) by (apply nth_error_Some; congruence).
  pose proof win1_le as Hw. pose proof ti_le. pose proof wsize_spec.
  destruct (Nat.leb_spec (ii p + 1) (length x)); [|lia].
  rewrite wadd_small in Hw by (unfold W, LEN_MAX in *; lia).
  unfold wvec. apply cv_at_ok; try lia.
  rewrite <- E. f_equal. unfold ii. lia.
Qed.

Lemma idx_spec : (ne p < n)%N -> sp p = false -> ii p + 2 <= length x ->
  let y := skipn (ii p) x in
  (exists r, index_of wvec (window n (ne p) wsize (ti p - off)) (ti p - off) = Ok r /\
     (r <= n - ne p)%N /\ (N.to_nat r < length y) /\ first_at y c (N.to_nat r)) \/
  (index_of wvec (window n (ne p) wsize (ti p - off)) (ti p - off) = Ok SIZE_MAX /\
   forall t, (N.of_nat t <= n - ne p)%N -> nth_error y t <> Some c).
Proof.
  intros He Hs Hi y.
  pose proof ti_le. pose proof wsize_spec as (Hw & Hw'). destruct Hv as (H1 & H2 & H3 & H4).
  rewrite Hs in H4.
  assert (Hwin : (ti p - off + 2 <= wsize)%N).
  { unfold ii, ee in *. lia. }
  set (K := window n (ne p) wsize (ti p - off)).
  assert (HK : (ti p - off + K <= wsize)%N /\
               (forall t, (N.of_nat t <= n - ne p)%N -> ii p + t < length x -> t < N.to_nat K) /\
               (K <= n - ne p + 1)%N).
  { unfold K, window.
    rewrite !wsub_small by (unfold W, SIZE_MAX, LEN_MAX in *; lia).
    destruct (N.ltb_spec (n - ne p) SIZE_MAX) as [L|L].
    - rewrite wadd_small by (unfold W, SIZE_MAX in *; lia).
      match goal with |- context [(?a <? ?b)%N] => destruct (N.ltb_spec a b) end.
      + repeat split; try lia.
      + repeat split; try lia. intros t Ht Hlt. unfold ii, ee in *. lia.
    - match goal with |- context [(?a <? ?b)%N] => destruct (N.ltb_spec a b) end.
      + unfold SIZE_MAX, LEN_MAX in *; lia.
      + repeat split; try lia. intros t Ht Hlt. unfold ii, ee in *. lia. }
  destruct HK as (HK1 & HK2 & HK3).
  assert (Ey : y = skipn (N.to_nat off + N.to_nat (ti p - off)) x).
  { unfold y. f_equal. unfold ii. lia. }
  destruct (index_of_spec c x (N.to_nat wsize) (N.to_nat off) ltac:(lia) Hx (ti p - off)%N K ltac:(lia))
    as [(r & Hr & Hr1 & Hr2)|(Hr & Hr1)]; rewrite <- Ey in *.
  - left. exists r; repeat split; try apply Hr2; auto; try lia.
    apply nth_error_Some. rewrite (proj1 Hr2). discriminate.
  - right; split; auto. intros t Ht E.
    assert (t < length y) by (apply nth_error_Some; congruence).
    unfold y in *; rewrite skipn_length in *.
    apply (Hr1 t); auto. apply HK2; auto. lia.
Qed.
End Window.

(** ** One step *)
Definition step_ok (alg : algorithm) (x : str) (n : N) (b : nat) (c : char) (p : position)
           (ps : list position) : Prop :=
  Forall (valid alg x n (S b)) ps /\
  forall u k, (N.of_nat k <= n)%N ->
    (acc alg x p (c :: u) k <-> exists p', In p' ps /\ acc alg x p' u k).

Lemma acc_ns alg x i e u k : acc alg x (Pos i e false) u k <->
  N.to_nat e <= k /\ cost_le alg (k - N.to_nat e) (skipn (N.to_nat i) x) u.
Proof. reflexivity. Qed.

Lemma skip_cons {A} (x : list A) i : i + 1 <= length x ->
  exists d y, skipn i x = d :: y /\ skipn (S i) x = y /\ nth_error x i = Some d.
Proof.
  intros H. destruct (skipn i x) as [|d y] eqn:E.
  - apply skipn_nil_len in E; lia.
  - exists d, y. apply nth_skipn in E. tauto.
Qed.

Lemma skip_nil {A} (x : list A) i : length x <= i -> skipn i x = [].
Proof. intros; now apply skipn_all2. Qed.

Lemma cle_skip_S alg m t y u : cost_le alg m (skipn t y) u -> forall m', t + m <= m' -> cost_le alg m' y u.
Proof. intros H m' Hm. eapply cle_weaken; [apply cle_skip; eauto|lia]. Qed.

(** soundness of the (i + j + 1, e + j) position *)
Lemma sound_jump alg m j c y u : first_at y c j -> cost_le alg m (skipn (S j) y) u ->
  cost_le alg (j + m) y (c :: u).
Proof.
  intros [Hj _] H. apply cle_skip.
  destruct (skipn j y) as [|d y'] eqn:E.
  - apply skipn_nil_len in E. assert (j < length y) by (apply nth_error_Some; congruence). lia.
  - apply nth_skipn in E. destruct E as [E1 E2]. rewrite Hj in E1; injection E1 as <-.
    rewrite E2 in H. auto with cle.
Qed.

Lemma skipn_plus {A} (x : list A) i j : skipn j (skipn i x) = skipn (i + j) x.
Proof. revert x; induction i as [|i IH]; intros x; [reflexivity|]. destruct x; simpl; [destruct j; auto|auto]. Qed.

Ltac nowrap := repeat
  match goal with
  | |- context [wadd ?a ?b] =>
      lazymatch a with
      | context [wadd] => fail
      | _ => rewrite (wadd_small a b) by (unfold W, LEN_MAX, SIZE_MAX in *; lia)
      end
  end.

(** *** Soundness of each kind of successor *)
Lemma N_succ i : N.to_nat (i + 1) = S (N.to_nat i).
Proof. lia. Qed.
Lemma N_succ2 i : N.to_nat (i + 2) = S (S (N.to_nat i)).
Proof. lia. Qed.

Lemma acc_match alg x i e c y u k : skipn (N.to_nat i) x = c :: y ->
  acc alg x (Pos i e false) (c :: u) k <-> acc alg x (Pos (i + 1) e false) u k.
Proof.
  intros Ey. rewrite !acc_ns, (N_succ i), Ey, cle_head.
  apply nth_skipn in Ey. destruct Ey as [_ ->]. tauto.
Qed.

Lemma acc_ins alg x i e c u k : acc alg x (Pos i (e + 1) false) u k -> acc alg x (Pos i e false) (c :: u) k.
Proof.
  rewrite !acc_ns. intros [H1 H2]. split; [lia|].
  apply cle_weaken with (S (k - N.to_nat (e + 1))); [|lia]. now apply cle_ins.
Qed.

Lemma acc_sub alg x i e c u k : N.to_nat i < length x ->
  acc alg x (Pos (i + 1) (e + 1) false) u k -> acc alg x (Pos i e false) (c :: u) k.
Proof.
  intros Hi. destruct (skip_cons x (N.to_nat i) ltac:(lia)) as (d & y & E1 & E2 & _).
  rewrite !acc_ns, (N_succ i), E1, E2. intros [H1 H2]. split; [lia|].
  apply cle_weaken with (S (k - N.to_nat (e + 1))); [|lia]. now apply cle_sub.
Qed.

Lemma acc_jump alg x i e c j u k : first_at (skipn (N.to_nat i) x) c (N.to_nat j) ->
  acc alg x (Pos (i + j + 1) (e + j) false) u k -> acc alg x (Pos i e false) (c :: u) k.
Proof.
  rewrite !acc_ns. intros Hj [H1 H2]. split; [lia|].
  replace (N.to_nat (i + j + 1)) with (N.to_nat i + S (N.to_nat j)) in H2 by lia.
  rewrite <- skipn_plus in H2. apply cle_weaken with (N.to_nat j + (k - N.to_nat (e + j))); [|lia].
  eapply sound_jump; eauto.
Qed.

Lemma acc_swap x i e c d y u k : skipn (N.to_nat i) x = d :: c :: y ->
  acc TRANSPOSITION x (Pos i (e + 1) true) u k -> acc TRANSPOSITION x (Pos i e false) (c :: u) k.
Proof.
  intros Ey. unfold acc at 1; cbn [sp]. unfold ii, ee; cbn [ti ne].
  intros (c1 & c2 & y' & u' & E1 & -> & H1 & H2). rewrite Ey in E1. injection E1 as <- <- <-.
  rewrite acc_ns, Ey. split; [lia|].
  apply cle_weaken with (S (k - N.to_nat (e + 1))); [|lia]. now apply cle_tr.
Qed.

Lemma acc_swap2 x i e d1 d2 y c u k : skipn (N.to_nat i) x = d1 :: d2 :: y ->
  acc TRANSPOSITION x (Pos i e true) (c :: u) k <->
  c = d1 /\ acc TRANSPOSITION x (Pos (i + 2) e false) u k.
Proof.
  intros Ey. rewrite acc_ns, (N_succ2 i).
  assert (E2 : skipn (S (S (N.to_nat i))) x = y).
  { apply nth_skipn in Ey; destruct Ey as [_ Ey]. apply nth_skipn in Ey; tauto. }
  rewrite E2. unfold acc; cbn [sp]. unfold ii, ee; cbn [ti ne]. rewrite Ey. split.
  - intros (c1 & c2 & y' & u' & E1 & E3 & H1 & H2). injection E1 as <- <- <-. injection E3 as <- <-. auto.
  - intros (-> & H1 & H2). do 4 eexists; repeat split; eauto.
Qed.

Lemma acc_merge x i e c u k : S (N.to_nat i) < length x ->
  acc MERGE_AND_SPLIT x (Pos (i + 2) (e + 1) false) u k -> acc MERGE_AND_SPLIT x (Pos i e false) (c :: u) k.
Proof.
  intros Hi. destruct (skip_cons x (N.to_nat i) ltac:(lia)) as (d & y & E1 & E2 & _).
  destruct (skip_cons x (S (N.to_nat i)) ltac:(lia)) as (d' & y' & E3 & E4 & _).
  rewrite !acc_ns, (N_succ2 i), E1, E4. rewrite E3 in E2; subst y. intros [H1 H2]. split; [lia|].
  apply cle_weaken with (S (k - N.to_nat (e + 1))); [|lia]. now apply cle_mrg.
Qed.

Lemma acc_split x i e c u k :
  acc MERGE_AND_SPLIT x (Pos i (e + 1) true) u k -> acc MERGE_AND_SPLIT x (Pos i e false) (c :: u) k.
Proof.
  unfold acc at 1; cbn [sp]. unfold ii, ee; cbn [ti ne].
  intros (c1 & y' & c' & u' & E1 & -> & H1 & H2).
  rewrite acc_ns, E1. split; [lia|].
  apply cle_weaken with (S (k - N.to_nat (e + 1))); [|lia]. now apply cle_spl.
Qed.

Lemma acc_split2 x i e c u k : N.to_nat i < length x ->
  acc MERGE_AND_SPLIT x (Pos i e true) (c :: u) k <-> acc MERGE_AND_SPLIT x (Pos (i + 1) e false) u k.
Proof.
  intros Hi. destruct (skip_cons x (N.to_nat i) ltac:(lia)) as (d & y & E1 & E2 & _).
  rewrite acc_ns, (N_succ i), E2. unfold acc; cbn [sp]. unfold ii, ee; cbn [ti ne]. rewrite E1. split.
  - intros (c1 & y' & c' & u' & E3 & E4 & H1 & H2). injection E3 as <- <-. injection E4 as <- <-. auto.
  - intros (H1 & H2). do 4 eexists; repeat split; eauto.
Qed.

(** *** Completeness *)
Lemma acc_end alg x i e c u k : length x <= N.to_nat i ->
  acc alg x (Pos i e false) (c :: u) k -> acc alg x (Pos i (e + 1) false) u k.
Proof.
  intros Hi. rewrite !acc_ns, skip_nil by auto. intros [H1 H2].
  apply complete_nil in H2. destruct H2 as (m' & Hm & H2). split; [lia|].
  eapply cle_weaken; eauto; lia.
Qed.

(** no error left *)
Lemma acc_full alg x i e c u k : k <= N.to_nat e -> acc alg x (Pos i e false) (c :: u) k ->
  exists y, skipn (N.to_nat i) x = c :: y.
Proof.
  rewrite acc_ns. intros Hk [H1 H2]. replace (k - N.to_nat e) with 0 in H2 by lia.
  destruct H2 as (m & Hm & H2). assert (m = 0) by lia. subst. apply aligned_0 in H2. eauto.
Qed.

Lemma first_at_fun y c j j' : first_at y c j -> first_at y c j' -> j = j'.
Proof.
  intros [H1 H2] [H3 H4]. destruct (Nat.lt_trichotomy j j') as [Hlt|[Hlt|Hlt]]; auto.
  - exfalso; eapply H4; eauto.
  - exfalso; eapply H2; eauto.
Qed.

Lemma acc_complete_standard x i e d y c u k : skipn (N.to_nat i) x = d :: y -> d <> c ->
  acc STANDARD x (Pos i e false) (c :: u) k ->
  acc STANDARD x (Pos i (e + 1) false) u k \/ acc STANDARD x (Pos (i + 1) (e + 1) false) u k \/
  exists j, (1 <= j)%N /\ N.to_nat e + N.to_nat j <= k /\ first_at (skipn (N.to_nat i) x) c (N.to_nat j) /\
            acc STANDARD x (Pos (i + j + 1) (e + j) false) u k.
Proof.
  intros Ey Hd. rewrite !acc_ns, (N_succ i). intros [H1 H2]. rewrite Ey in *.
  assert (Ey' := Ey). apply nth_skipn in Ey'. destruct Ey' as [_ Ey'].
  apply complete_standard in H2; auto.
  destruct H2 as (m' & Hm & [H2|[H2|(j & J1 & J2 & J3 & J4)]]).
  - left. split; [lia|]. eapply cle_weaken; eauto; lia.
  - right; left. rewrite Ey'. split; [lia|]. eapply cle_weaken; eauto; lia.
  - right; right. exists (N.of_nat j). rewrite Nnat.Nat2N.id. rewrite acc_ns.
    repeat split; try lia; try apply J3.
    rewrite <- Ey, skipn_plus in J4. replace (N.to_nat (i + N.of_nat j + 1)) with (N.to_nat i + S j) by lia.
    eapply cle_weaken; eauto; lia.
Qed.

Lemma acc_complete_transposition x i e d y c u k : skipn (N.to_nat i) x = d :: y -> d <> c ->
  acc TRANSPOSITION x (Pos i e false) (c :: u) k ->
  acc TRANSPOSITION x (Pos i (e + 1) false) u k \/ acc TRANSPOSITION x (Pos (i + 1) (e + 1) false) u k \/
  ((exists y', y = c :: y') /\ N.to_nat e < k /\ acc TRANSPOSITION x (Pos i (e + 1) true) u k) \/
  exists j, (1 <= j)%N /\ N.to_nat e + N.to_nat j <= k /\ first_at (skipn (N.to_nat i) x) c (N.to_nat j) /\
            acc TRANSPOSITION x (Pos (i + j + 1) (e + j) false) u k.
Proof.
  intros Ey Hd. rewrite !acc_ns, (N_succ i). intros [H1 H2]. rewrite Ey in *.
  assert (Ey' := Ey). apply nth_skipn in Ey'. destruct Ey' as [_ Ey'].
  apply complete_transposition in H2; auto.
  destruct H2 as (m' & Hm & [H2|[H2|[(y' & u' & -> & -> & H2)|(j & J1 & J2 & J3 & J4)]]]).
  - left. split; [lia|]. eapply cle_weaken; eauto; lia.
  - right; left. rewrite Ey'. split; [lia|]. eapply cle_weaken; eauto; lia.
  - right; right; left. repeat split; eauto; try lia.
    unfold acc; cbn [sp]. unfold ii, ee; cbn [ti ne]. rewrite Ey.
    do 4 eexists; repeat split; eauto; try lia. eapply cle_weaken; eauto; lia.
  - right; right; right. exists (N.of_nat j). rewrite Nnat.Nat2N.id. rewrite acc_ns.
    repeat split; try lia; try apply J3.
    rewrite <- Ey, skipn_plus in J4. replace (N.to_nat (i + N.of_nat j + 1)) with (N.to_nat i + S j) by lia.
    eapply cle_weaken; eauto; lia.
Qed.

Lemma acc_complete_merge_and_split x i e d y c u k : skipn (N.to_nat i) x = d :: y -> d <> c ->
  acc MERGE_AND_SPLIT x (Pos i e false) (c :: u) k ->
  acc MERGE_AND_SPLIT x (Pos i (e + 1) false) u k \/
  acc MERGE_AND_SPLIT x (Pos (i + 1) (e + 1) false) u k \/
  acc MERGE_AND_SPLIT x (Pos i (e + 1) true) u k \/
  ((exists d' y', y = d' :: y') /\ acc MERGE_AND_SPLIT x (Pos (i + 2) (e + 1) false) u k).
Proof.
  intros Ey Hd. rewrite !acc_ns, (N_succ i), (N_succ2 i). intros [H1 H2]. rewrite Ey in *.
  assert (Ey' := Ey). apply nth_skipn in Ey'. destruct Ey' as [_ Ey'].
  apply complete_merge_and_split in H2; auto.
  destruct H2 as (m' & Hm & [H2|[H2|[(e' & u' & -> & H2)|(d' & y' & -> & H2)]]]).
  - left. split; [lia|]. eapply cle_weaken; eauto; lia.
  - right; left. rewrite Ey'. split; [lia|]. eapply cle_weaken; eauto; lia.
  - right; right; left. unfold acc; cbn [sp]. unfold ii, ee; cbn [ti ne]. rewrite Ey.
    do 4 eexists; repeat split; eauto; try lia. eapply cle_weaken; eauto; lia.
  - right; right; right. split; [eauto|]. apply nth_skipn in Ey'. destruct Ey' as [_ ->].
    split; [lia|]. eapply cle_weaken; eauto; lia.
Qed.

Ltac vld := unfold valid, ii, ee in *; cbn [ti ne sp] in *; repeat split; try lia; try discriminate.
Ltac forall_vld := unfold valid, ii, ee in *; cbn [ti ne sp] in *; repeat (apply Forall_cons; [cbn [ti ne sp]; repeat split; first [lia|discriminate]|]); apply Forall_nil.
Ltac in_list := simpl; tauto.

(** The outcomes shared by all algorithms *)
Lemma out_match alg x n b c I E d y : valid alg x n b (Pos I E false) -> skipn (N.to_nat I) x = d :: y -> c = d ->
  step_ok alg x n b c (Pos I E false) [Pos (I + 1) E false].
Proof.
  intros Hv Ey ->.
  assert (N.to_nat I < length x) by (apply nth_error_Some; apply nth_skipn in Ey; destruct Ey; congruence).
  split; [forall_vld|].
  intros u k Hk. rewrite (acc_match _ _ _ _ _ _ _ _ Ey). split.
  - intros H'; eexists; split; [|eassumption]; in_list.
  - intros (p' & [<-|[]] & H'); auto.
Qed.

Lemma out_end alg x n b c I E : valid alg x n b (Pos I E false) -> (E < n)%N -> length x <= N.to_nat I ->
  step_ok alg x n b c (Pos I E false) [Pos I (E + 1) false].
Proof.
  intros Hv HE Hl. split; [forall_vld|]. intros u k Hk. split.
  - intros H'. eexists; split; [left; reflexivity|]. apply acc_end in H'; auto.
  - intros (p' & [<-|[]] & H'). now apply acc_ins.
Qed.

Lemma out_none alg x n b c I E : (n <= E)%N -> (forall y, skipn (N.to_nat I) x <> c :: y) ->
  step_ok alg x n b c (Pos I E false) [].
Proof.
  intros HE Hy. split; [constructor|]. intros u k Hk. split.
  - intros H. apply acc_full in H; [|lia]. destruct H as (y' & H). now apply Hy in H.
  - intros (p' & [] & _).
Qed.

Section Step.
Variables (x : str) (n : N) (b : nat) (c : char) (off I E : N) (s : bool).
Hypothesis Hx : (N.of_nat (length x) <= LEN_MAX)%N.
Hypothesis Hn : (n <= SIZE_MAX)%N.
Hypothesis Hb : small_depth b.
Hypothesis Hoff : (off <= I)%N.
Hypothesis Hbo : (N.of_nat b <= off + n)%N.
Let cv := wvec x n c off.
Local Notation p := (Pos I E s).

Lemma window_facts alg : valid alg x n b p ->
  wsub I off = (I - off)%N /\ N.of_nat (length cv) = wsize x n off /\
  (I <= LEN_MAX)%N /\ (E < 4611686018427387904 + LEN_MAX)%N /\
  (wadd (I - off) 1 <=? wsize x n off)%N = (N.to_nat I + 1 <=? length x) /\
  ((E < n)%N \/ s = true -> (wadd (I - off) 1 =? wsize x n off)%N = (N.to_nat I + 1 =? length x) /\
                            (wadd (I - off) 2 <=? wsize x n off)%N = (N.to_nat I + 2 <=? length x)) /\
  (forall d y, skipn (N.to_nat I) x = d :: y -> cv_at cv (I - off) = Ok (ceqb c d)).
Proof.
  intros Hv.
  assert (Hti : (I <= N.of_nat (length x))%N).
  { destruct Hv as [H _]. unfold ii in H; cbn [ti] in H. lia. }
  repeat split.
  - eapply (h_small) with (p := p); eauto.
  - eapply wvec_length with (p := p); eauto.
  - lia.
  - destruct Hv as (V1 & V2 & V3 & V4). unfold small_depth, ii, ee in *; cbn [ti ne sp] in *. lia.
  - eapply win1_le with (p := p); eauto.
  - eapply win1_eq with (p := p); eauto.
  - eapply win2_le with (p := p); eauto.
  - intros d y Ey. eapply cv_head with (p := p) (y := y); eauto.
Qed.

Lemma idx_facts alg : valid alg x n b p -> (E < n)%N -> s = false -> N.to_nat I + 2 <= length x ->
  let y := skipn (N.to_nat I) x in
  (exists r, index_of cv (window n E (wsize x n off) (I - off)) (I - off) = Ok r /\
     (r <= n - E)%N /\ (N.to_nat I + N.to_nat r < length x) /\ first_at y c (N.to_nat r)) \/
  (index_of cv (window n E (wsize x n off) (I - off)) (I - off) = Ok SIZE_MAX /\
   forall t, (N.of_nat t <= n - E)%N -> nth_error y t <> Some c).
Proof.
  intros Hv HE Hs Hi y.
  edestruct idx_spec with (p := p) (off := off) (c := c) as [(r & H1 & H2 & H3 & H4)|H]; eauto.
  left; exists r; repeat split; auto; try apply H4.
  rewrite skipn_length in H3. unfold ii in *; cbn [ti] in *. lia.
Qed.

Lemma step_standard : valid STANDARD x n b p ->
  exists ps, transition_standard n p cv off = Ok ps /\ step_ok STANDARD x n b c p ps.
Proof.
  intros Hv.
  destruct (window_facts STANDARD Hv) as (F1 & F2 & F3 & F4 & W1 & W2 & Hcv).
  assert (Hs : s = false).
  { destruct Hv as (_ & _ & _ & H). cbn [sp] in H. destruct s; [destruct H; congruence|auto]. }
  unfold transition_standard. cbn [ti ne sp]. rewrite F1, F2, W1.
  pose proof (idx_facts STANDARD Hv) as Hidx.
  assert (Hv' := Hv). rewrite Hs in *. clear Hs.
  unfold small_depth in Hb.
  destruct (N.ltb_spec E n) as [L|L].
  - destruct (W2 (or_introl L)) as [-> ->]. specialize (Hidx L eq_refl).
    destruct (Nat.leb_spec (N.to_nat I + 2) (length x)) as [L2|L2].
    + destruct (skip_cons x (N.to_nat I) ltac:(lia)) as (d & y & Ey & Ey' & Ed).
      destruct (Hidx L2) as [(r & -> & R1 & R2 & R3)|(-> & R1)]; cbn [rbind].
      * destruct (N.eqb_spec r 0) as [->|Hr0].
        { destruct R3 as [R3 _]. rewrite Ey in R3. injection R3 as ->.
          nowrap. eexists; split; [reflexivity|]. split; [forall_vld|].
          intros u k Hk. rewrite (acc_match _ _ _ _ _ _ _ _ Ey). split.
          - intros H; eexists; split; [|eassumption]; in_list.
          - intros (p' & [<-|[]] & H); auto. }
        destruct (N.eqb_spec r SIZE_MAX) as [->|Hrm]; [unfold SIZE_MAX, LEN_MAX in *; lia|].
        cbn [negb]. nowrap. eexists; split; [reflexivity|]. split; [forall_vld|].
        intros u k Hk.
        assert (Hd : d <> c). { intros ->. destruct R3 as [_ R3]. apply (R3 0); [lia|]. now rewrite Ey. }
        split.
        { intros H. apply (acc_complete_standard _ _ _ _ _ _ _ _ Ey Hd) in H.
          destruct H as [H|[H|(j & J1 & J2 & J3 & J4)]].
          - eexists; split; [|eassumption]; in_list.
          - eexists; split; [|eassumption]; in_list.
          - assert (j = r) by (apply N2Nat.inj; eapply first_at_fun; eauto). subst j.
            eexists; split; [|eassumption]; in_list. }
        { intros (p' & [<-|[<-|[<-|[]]]] & H).
          - now apply acc_ins.
          - apply acc_sub; auto; lia.
          - eapply acc_jump; eauto. }
      * rewrite N.eqb_refl. change (SIZE_MAX =? 0)%N with false. cbn [negb]. nowrap.
        eexists; split; [reflexivity|]. split; [forall_vld|].
        intros u k Hk.
        assert (Hd : d <> c). { intros ->. apply (R1 0); [lia|]. now rewrite Ey. }
        split.
        { intros H. apply (acc_complete_standard _ _ _ _ _ _ _ _ Ey Hd) in H.
          destruct H as [H|[H|(j & J1 & J2 & [J3 _] & J4)]].
          - eexists; split; [|eassumption]; in_list.
          - eexists; split; [|eassumption]; in_list.
          - exfalso. apply (R1 (N.to_nat j)); auto. lia. }
        { intros (p' & [<-|[<-|[]]] & H).
          - now apply acc_ins.
          - apply acc_sub; auto; lia. }
    + destruct (Nat.eqb_spec (N.to_nat I + 1) (length x)) as [L1|L1].
      * destruct (skip_cons x (N.to_nat I) ltac:(lia)) as (d & y & Ey & Ey' & Ed).
        rewrite (Hcv _ _ Ey). cbn [rbind]. destruct (ceqb c d) eqn:Ecd.
        { apply ceqb_true in Ecd; subst d.
          nowrap. eexists; split; [reflexivity|]. split; [forall_vld|].
          intros u k Hk. rewrite (acc_match _ _ _ _ _ _ _ _ Ey). split.
          - intros H; eexists; split; [|eassumption]; in_list.
          - intros (p' & [<-|[]] & H); auto. }
        { apply ceqb_false in Ecd. nowrap. eexists; split; [reflexivity|]. split; [forall_vld|].
          intros u k Hk. split.
          - intros H. apply (acc_complete_standard _ _ _ _ _ _ _ _ Ey (not_eq_sym Ecd)) in H.
            destruct H as [H|[H|(j & J1 & J2 & [J3 _] & J4)]].
            + eexists; split; [|eassumption]; in_list.
            + eexists; split; [|eassumption]; in_list.
            + exfalso. assert (N.to_nat j < length (skipn (N.to_nat I) x)) by (apply nth_error_Some; congruence).
              rewrite skipn_length in *. lia.
          - intros (p' & [<-|[<-|[]]] & H).
            + now apply acc_ins.
            + apply acc_sub; auto; lia. }
      * assert (length x <= N.to_nat I) by lia.
        nowrap. eexists; split; [reflexivity|]. split; [forall_vld|].
        intros u k Hk. split.
        { intros H'. eexists; split; [left; reflexivity|]. apply acc_end in H'; auto. }
        { intros (p' & [<-|[]] & H'). now apply acc_ins. }
  - assert (E = n) by (destruct Hv as (_ & H & _); cbn [ne] in H; lia). subst E.
    rewrite N.eqb_refl; cbn [andb].
    destruct (Nat.leb_spec (N.to_nat I + 1) (length x)) as [L1|L1].
    + destruct (skip_cons x (N.to_nat I) ltac:(lia)) as (d & y & Ey & Ey' & Ed).
      rewrite (Hcv _ _ Ey). cbn [rbind]. destruct (ceqb c d) eqn:Ecd.
      * apply ceqb_true in Ecd; subst d.
        nowrap. eexists; split; [reflexivity|]. split; [forall_vld|].
        intros u k Hk. rewrite (acc_match _ _ _ _ _ _ _ _ Ey). split.
        { intros H; eexists; split; [|eassumption]; in_list. }
        { intros (p' & [<-|[]] & H); auto. }
      * apply ceqb_false in Ecd. eexists; split; [reflexivity|]. split; [constructor|].
        intros u k Hk. split.
        { intros H. apply acc_full in H; [|lia]. destruct H as (y' & H). congruence. }
        { intros (p' & [] & _). }
    + eexists; split; [reflexivity|]. split; [constructor|].
      intros u k Hk. split.
      { intros H. apply acc_full in H; [|lia]. destruct H as (y' & H).
        rewrite skip_nil in H by lia. discriminate. }
      { intros (p' & [] & _). }
Qed.

Lemma step_transposition : valid TRANSPOSITION x n b p ->
  exists ps, transition_transposition n p cv off = Ok ps /\ step_ok TRANSPOSITION x n b c p ps.
Proof.
  intros Hv.
  destruct (window_facts TRANSPOSITION Hv) as (F1 & F2 & F3 & F4 & W1 & W2 & Hcv).
  pose proof (idx_facts TRANSPOSITION Hv) as Hidx.
  unfold transition_transposition. cbn [ti ne sp]. rewrite F1, F2, W1.
  assert (V := Hv). unfold valid, ii, ee in V; cbn [ti ne sp] in V. destruct V as (V1 & V2 & V3 & V4).
  unfold small_depth in Hb.
  destruct s.
  - (* special *)
    destruct V4 as (_ & V4 & V5 & V6 & V7).
    destruct (W2 (or_intror eq_refl)) as [-> ->]. clear W2 W1.
    destruct (N.eqb_spec E 0) as [->|E0]; [lia|]. cbn [andb negb].
    destruct (skip_cons x (N.to_nat I) ltac:(lia)) as (d & y & Ey & Ey' & Ed).
    destruct (skip_cons x (S (N.to_nat I)) ltac:(lia)) as (d' & y' & E3 & E4 & _).
    rewrite E3 in Ey'. subst y.
    destruct (Nat.leb_spec (N.to_nat I + 2) (length x)); [|lia].
    rewrite Bool.andb_false_r. cbn [andb negb].
    rewrite (Hcv _ _ Ey). cbn [rbind]. nowrap.
    assert (Hout : forall e', e' = E -> step_ok TRANSPOSITION x n b c (Pos I E true)
                     (if ceqb c d then [Pos (I + 2) e' false] else [])).
    { intros e' ->. destruct (ceqb c d) eqn:Ecd.
      - split; [forall_vld|]. intros u k Hk. rewrite (acc_swap2 _ _ _ _ _ _ _ _ _ Ey).
        apply ceqb_true in Ecd; subst d. split.
        + intros [_ H']; eexists; split; [|eassumption]; in_list.
        + intros (p' & [<-|[]] & H'); auto.
      - split; [constructor|]. intros u k Hk. rewrite (acc_swap2 _ _ _ _ _ _ _ _ _ Ey).
        apply ceqb_false in Ecd. split.
        + intros [H' _]; congruence.
        + intros (p' & [] & _). }
    destruct (N.leb_spec 1 E); [|lia]. cbn [andb].
    destruct (N.ltb_spec E n) as [L|L].
    + specialize (Hout E eq_refl). destruct (ceqb c d); eexists; split; eauto; reflexivity.
    + specialize (Hout n ltac:(lia)). destruct (ceqb c d); eexists; split; eauto; reflexivity.
  - destruct V4 as (V4 & V5).
    (* rewrite the two branches with errors left into one *)
    match goal with |- exists ps, ?t = Ok ps /\ _ =>
      assert (Ht : t =
        if (E <? n)%N then
          if (wadd (I - off) 2 <=? wsize x n off)%N then
            do j <- index_of cv (window n E (wsize x n off) (I - off)) (I - off);
            if (j =? 0)%N then Ok [Pos (wadd I 1) E false]
            else if (j =? 1)%N then
              Ok [Pos I (wadd E 1) false; Pos I (wadd E 1) true;
                  Pos (wadd I 1) (wadd E 1) false; Pos (wadd I 2) (wadd E 1) false]
            else if (j =? SIZE_MAX)%N then
              Ok [Pos I (wadd E 1) false; Pos (wadd I 1) (wadd E 1) false]
            else
              Ok [Pos I (wadd E 1) false; Pos (wadd I 1) (wadd E 1) false;
                  Pos (wadd (wadd I j) 1) (wadd E j) false]
          else if (wadd (I - off) 1 =? wsize x n off)%N then
            do bb <- cv_at cv (I - off);
            if bb then Ok [Pos (wadd I 1) E false]
            else Ok [Pos I (wadd E 1) false; Pos (wadd I 1) (wadd E 1) false]
          else Ok [Pos I (wadd E 1) false]
        else if N.to_nat I + 1 <=? length x then
          do bb <- cv_at cv (I - off);
          if bb then Ok [Pos (wadd I 1) n false] else Ok []
        else Ok [])
    end.
    { destruct (N.eqb_spec E 0) as [->|E0].
      - destruct (N.ltb_spec 0 n) as [L|L]; cbn [andb negb].
        + change (wadd 0 1) with 1%N.
          pose proof (Hidx L eq_refl) as Hi. destruct (W2 (or_introl L)) as [_ ->].
          destruct (Nat.leb_spec (N.to_nat I + 2) (length x)) as [L2|L2]; [|reflexivity].
          destruct (Hi L2) as [(r & -> & R1 & R2 & R3)|(-> & _)]; [|reflexivity]. cbn [rbind].
          destruct (N.eqb_spec r 0); [reflexivity|]. destruct (N.eqb_spec r 1); [reflexivity|].
          destruct (N.eqb_spec r SIZE_MAX) as [->|Hj]; [reflexivity|].
          rewrite (wadd_small 0 r) by (unfold W, LEN_MAX in *; lia). reflexivity.
        + destruct (N.leb_spec 1 0); [lia|]. cbn [andb]. rewrite Bool.andb_true_r, Bool.andb_false_r.
          reflexivity.
      - cbn [andb]. destruct (N.leb_spec 1 E); [|lia]. cbn [andb negb].
        rewrite Bool.andb_true_r, Bool.andb_false_r. reflexivity. }
    rewrite Ht; clear Ht.
    destruct (N.ltb_spec E n) as [L|L].
    + destruct (W2 (or_introl L)) as [-> ->]. specialize (Hidx L eq_refl).
      destruct (Nat.leb_spec (N.to_nat I + 2) (length x)) as [L2|L2].
      * destruct (skip_cons x (N.to_nat I) ltac:(lia)) as (d & y & Ey & Ey' & Ed).
        destruct (Hidx L2) as [(r & -> & R1 & R2 & R3)|(-> & R1)]; cbn [rbind].
        { destruct (N.eqb_spec r 0) as [->|Hr0].
          { destruct R3 as [R3 _]. rewrite Ey in R3. injection R3 as ->.
            nowrap. eexists; split; [reflexivity|]. eapply out_match; eauto. }
          assert (Hd : d <> c). { intros ->. destruct R3 as [_ R3]. apply (R3 0); [lia|]. now rewrite Ey. }
          destruct (N.eqb_spec r 1) as [->|Hr1].
          { nowrap. eexists; split; [reflexivity|]. split; [forall_vld|].
            assert (exists y1, y = c :: y1) as (y1 & ->).
            { destruct R3 as [R3 _]. rewrite Ey in R3. simpl in R3. destruct y as [|d1 y1]; [discriminate|].
              injection R3 as ->. eauto. }
            intros u k Hk. split.
            - intros H. apply (acc_complete_transposition _ _ _ _ _ _ _ _ Ey Hd) in H.
              destruct H as [H|[H|[(_ & _ & H)|(j & J1 & J2 & J3 & J4)]]].
              + eexists; split; [|eassumption]; in_list.
              + eexists; split; [|eassumption]; in_list.
              + eexists; split; [|eassumption]; in_list.
              + assert (j = 1%N) by (apply N2Nat.inj; eapply first_at_fun; eauto). subst j.
                replace (I + 1 + 1)%N with (I + 2)%N in J4 by lia.
                eexists; split; [|eassumption]; in_list.
            - intros (p' & [<-|[<-|[<-|[<-|[]]]]] & H).
              + now apply acc_ins.
              + eapply acc_swap; eauto.
              + apply acc_sub; auto; lia.
              + eapply acc_jump; eauto. replace (I + 1 + 1)%N with (I + 2)%N by lia. exact H. }
          destruct (N.eqb_spec r SIZE_MAX) as [->|Hrm]; [unfold SIZE_MAX, LEN_MAX in *; lia|].
          nowrap. eexists; split; [reflexivity|]. split; [forall_vld|].
          intros u k Hk. split.
          - intros H. apply (acc_complete_transposition _ _ _ _ _ _ _ _ Ey Hd) in H.
            destruct H as [H|[H|[((y1 & ->) & _ & H)|(j & J1 & J2 & J3 & J4)]]].
            + eexists; split; [|eassumption]; in_list.
            + eexists; split; [|eassumption]; in_list.
            + exfalso. destruct R3 as [_ R3]. apply (R3 1); [lia|]. now rewrite Ey.
            + assert (j = r) by (apply N2Nat.inj; eapply first_at_fun; eauto). subst j.
              eexists; split; [|eassumption]; in_list.
          - intros (p' & [<-|[<-|[<-|[]]]] & H).
            + now apply acc_ins.
            + apply acc_sub; auto; lia.
            + eapply acc_jump; eauto. }
        { change (SIZE_MAX =? 0)%N with false. change (SIZE_MAX =? 1)%N with false. rewrite N.eqb_refl. nowrap.
          eexists; split; [reflexivity|]. split; [forall_vld|].
          intros u k Hk.
          assert (Hd : d <> c). { intros ->. apply (R1 0); [lia|]. now rewrite Ey. }
          split.
          - intros H. apply (acc_complete_transposition _ _ _ _ _ _ _ _ Ey Hd) in H.
            destruct H as [H|[H|[((y1 & ->) & Hlt & H)|(j & J1 & J2 & [J3 _] & J4)]]].
            + eexists; split; [|eassumption]; in_list.
            + eexists; split; [|eassumption]; in_list.
            + exfalso. apply (R1 1); [lia|]. now rewrite Ey.
            + exfalso. apply (R1 (N.to_nat j)); auto. lia.
          - intros (p' & [<-|[<-|[]]] & H).
            + now apply acc_ins.
            + apply acc_sub; auto; lia. }
      * destruct (Nat.eqb_spec (N.to_nat I + 1) (length x)) as [L1|L1].
        { destruct (skip_cons x (N.to_nat I) ltac:(lia)) as (d & y & Ey & Ey' & Ed).
          rewrite (Hcv _ _ Ey). cbn [rbind]. destruct (ceqb c d) eqn:Ecd.
          { apply ceqb_true in Ecd. nowrap. eexists; split; [reflexivity|]. eapply out_match; eauto. }
          apply ceqb_false in Ecd. nowrap. eexists; split; [reflexivity|]. split; [forall_vld|].
          intros u k Hk. split.
          - intros H. apply (acc_complete_transposition _ _ _ _ _ _ _ _ Ey (not_eq_sym Ecd)) in H.
            assert (Hlen : length (skipn (N.to_nat I) x) = 1) by (rewrite skipn_length; lia).
            destruct H as [H|[H|[((y1 & ->) & _ & H)|(j & J1 & J2 & [J3 _] & J4)]]].
            + eexists; split; [|eassumption]; in_list.
            + eexists; split; [|eassumption]; in_list.
            + exfalso. rewrite Ey in Hlen. simpl in Hlen. lia.
            + exfalso. assert (N.to_nat j < length (skipn (N.to_nat I) x)) by (apply nth_error_Some; congruence).
              lia.
          - intros (p' & [<-|[<-|[]]] & H).
            + now apply acc_ins.
            + apply acc_sub; auto; lia. }
        { nowrap. eexists; split; [reflexivity|]. apply out_end; auto; lia. }
    + assert (E = n) by lia. subst E.
      destruct (Nat.leb_spec (N.to_nat I + 1) (length x)) as [L1|L1].
      * destruct (skip_cons x (N.to_nat I) ltac:(lia)) as (d & y & Ey & Ey' & Ed).
        rewrite (Hcv _ _ Ey). cbn [rbind]. destruct (ceqb c d) eqn:Ecd.
        { apply ceqb_true in Ecd. nowrap. eexists; split; [reflexivity|]. eapply out_match; eauto. }
        { apply ceqb_false in Ecd. eexists; split; [reflexivity|]. apply out_none; [lia|]. congruence. }
      * eexists; split; [reflexivity|]. apply out_none; [lia|]. rewrite skip_nil by lia. discriminate.
Qed.

Lemma step_merge_and_split : valid MERGE_AND_SPLIT x n b p ->
  exists ps, transition_merge_and_split n p cv off = Ok ps /\ step_ok MERGE_AND_SPLIT x n b c p ps.
Proof.
  intros Hv.
  destruct (window_facts MERGE_AND_SPLIT Hv) as (F1 & F2 & F3 & F4 & W1 & W2 & Hcv).
  unfold transition_merge_and_split. cbn [ti ne sp]. rewrite F1, F2, W1.
  assert (V := Hv). unfold valid, ii, ee in V; cbn [ti ne sp] in V. destruct V as (V1 & V2 & V3 & V4).
  unfold small_depth in Hb.
  destruct s.
  - (* special *)
    destruct V4 as (_ & V4 & V5 & V6 & V7).
    destruct (W2 (or_intror eq_refl)) as [-> ->]. clear W2 W1.
    destruct (N.eqb_spec E 0) as [->|E0]; [lia|]. cbn [andb negb].
    destruct (Nat.leb_spec (N.to_nat I + 1) (length x)); [|lia].
    assert (Hout : step_ok MERGE_AND_SPLIT x n b c (Pos I E true) [Pos (I + 1) E false]).
    { split; [forall_vld|]. intros u k Hk. rewrite acc_split2 by lia. split.
      - intros H'; eexists; split; [|eassumption]; in_list.
      - intros (p' & [<-|[]] & H'); auto. }
    nowrap.
    destruct (N.ltb_spec E n) as [L|L]; [|eauto].
    destruct (Nat.leb_spec (N.to_nat I + 2) (length x)); [eauto|].
    destruct (Nat.eqb_spec (N.to_nat I + 1) (length x)); [eauto|lia].
  - destruct V4 as (V4 & V5).
    match goal with |- exists ps, ?t = Ok ps /\ _ =>
      assert (Ht : t =
        if (E <? n)%N then
          if (wadd (I - off) 2 <=? wsize x n off)%N then
            do bb <- cv_at cv (I - off);
            if bb then Ok [Pos (wadd I 1) E false]
            else Ok [Pos I (wadd E 1) false; Pos I (wadd E 1) true;
                     Pos (wadd I 1) (wadd E 1) false; Pos (wadd I 2) (wadd E 1) false]
          else if (wadd (I - off) 1 =? wsize x n off)%N then
            do bb <- cv_at cv (I - off);
            if bb then Ok [Pos (wadd I 1) E false]
            else Ok [Pos I (wadd E 1) false; Pos I (wadd E 1) true;
                     Pos (wadd I 1) (wadd E 1) false]
          else Ok [Pos I (wadd E 1) false]
        else if N.to_nat I + 1 <=? length x then
          do bb <- cv_at cv (I - off);
          if bb then Ok [Pos (wadd I 1) n false] else Ok []
        else Ok [])
    end.
    { destruct (N.eqb_spec E 0) as [->|E0]; cbn [andb negb]; destruct (_ <? n)%N; reflexivity. }
    rewrite Ht; clear Ht.
    destruct (N.ltb_spec E n) as [L|L].
    + destruct (W2 (or_introl L)) as [-> ->].
      destruct (Nat.leb_spec (N.to_nat I + 2) (length x)) as [L2|L2].
      * destruct (skip_cons x (N.to_nat I) ltac:(lia)) as (d & y & Ey & Ey' & Ed).
        rewrite (Hcv _ _ Ey). cbn [rbind]. destruct (ceqb c d) eqn:Ecd.
        { apply ceqb_true in Ecd. nowrap. eexists; split; [reflexivity|]. eapply out_match; eauto. }
        apply ceqb_false in Ecd. nowrap. eexists; split; [reflexivity|]. split; [forall_vld|].
        intros u k Hk. split.
        { intros H. apply (acc_complete_merge_and_split _ _ _ _ _ _ _ _ Ey (not_eq_sym Ecd)) in H.
          destruct H as [H|[H|[H|(_ & H)]]]; eexists; (split; [|eassumption]); in_list. }
        { intros (p' & [<-|[<-|[<-|[<-|[]]]]] & H).
          - now apply acc_ins.
          - now apply acc_split.
          - apply acc_sub; auto; lia.
          - apply acc_merge; auto; lia. }
      * destruct (Nat.eqb_spec (N.to_nat I + 1) (length x)) as [L1|L1].
        { destruct (skip_cons x (N.to_nat I) ltac:(lia)) as (d & y & Ey & Ey' & Ed).
          rewrite (Hcv _ _ Ey). cbn [rbind]. destruct (ceqb c d) eqn:Ecd.
          { apply ceqb_true in Ecd. nowrap. eexists; split; [reflexivity|]. eapply out_match; eauto. }
          apply ceqb_false in Ecd. nowrap. eexists; split; [reflexivity|]. split; [forall_vld|].
          intros u k Hk. split.
          - intros H. apply (acc_complete_merge_and_split _ _ _ _ _ _ _ _ Ey (not_eq_sym Ecd)) in H.
            assert (Hlen : length (skipn (N.to_nat I) x) = 1) by (rewrite skipn_length; lia).
            destruct H as [H|[H|[H|((d' & y' & ->) & H)]]].
            1-3: eexists; (split; [|eassumption]); in_list.
            exfalso. rewrite Ey in Hlen. simpl in Hlen. lia.
          - intros (p' & [<-|[<-|[<-|[]]]] & H).
            + now apply acc_ins.
            + now apply acc_split.
            + apply acc_sub; auto; lia. }
        { nowrap. eexists; split; [reflexivity|]. apply out_end; auto; lia. }
    + assert (E = n) by lia. subst E.
      destruct (Nat.leb_spec (N.to_nat I + 1) (length x)) as [L1|L1].
      * destruct (skip_cons x (N.to_nat I) ltac:(lia)) as (d & y & Ey & Ey' & Ed).
        rewrite (Hcv _ _ Ey). cbn [rbind]. destruct (ceqb c d) eqn:Ecd.
        { apply ceqb_true in Ecd. nowrap. eexists; split; [reflexivity|]. eapply out_match; eauto. }
        { apply ceqb_false in Ecd. eexists; split; [reflexivity|]. apply out_none; [lia|]. congruence. }
      * eexists; split; [reflexivity|]. apply out_none; [lia|]. rewrite skip_nil by lia. discriminate.
Qed.
End Step.

Theorem position_step alg x n b c off p :
  (N.of_nat (length x) <= LEN_MAX)%N -> (n <= SIZE_MAX)%N -> small_depth b ->
  (off <= ti p)%N -> (N.of_nat b <= off + n)%N -> valid alg x n b p ->
  exists ps, position_transition alg n p (wvec x n c off) off = Ok ps /\ step_ok alg x n b c p ps.
Proof.
  destruct p as [I E s]; cbn [ti]. intros. destruct alg; cbn [position_transition].
  - now apply step_standard.
  - now apply step_transposition.
  - now apply step_merge_and_split.
Qed.
