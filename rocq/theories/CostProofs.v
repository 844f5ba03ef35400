(** * CostProofs: how often a call looks at the memo. *)
From Verif Require Import Base Spec ModelDistance ModelThreads SpecDistance SpecThreads DistProofs DistFacts.

Definition inK (K : list key) (k : key) : bool := existsb (key_eqb k) K.
Lemma inK_In K k : inK K k = true <-> In k K.
Proof.
  unfold inK. rewrite existsb_exists. split.
  - intros (x & I & E). apply key_eqb_eq in E. subst. auto.
  - intros I. exists k. split; auto. apply key_eqb_eq. auto.
Qed.
Lemma inK_not K k : inK K k = false <-> ~ In k K.
Proof. rewrite <- inK_In. destruct (inK K k); split; intros; congruence. Qed.

Definition ksize (k : key) : nat := length (fst k) + length (snd k).
Lemma ksize_pair v w : ksize (symmetric_pair v w) = length v + length w.
Proof. unfold ksize, symmetric_pair. destruct (str_ltb v w); cbn; lia. Qed.

(** [frugal U Q K n p]: if the keys [K] are in the memo and entries never
    vanish, [p] performs at most [n] actions and enters only keys in [U]; at the
    end [Q] holds of the result, the keys known to be there and what is left. *)
Inductive frugal {A : Type} (U : key -> Prop) (Q : A -> list key -> nat -> Prop) : list key -> nat -> prog A -> Prop :=
| frugal_ret : forall K n x, Q x K n -> frugal U Q K n (Ret x)
| frugal_get : forall K n k c, (~ In k K -> frugal U Q K n (c None)) -> (forall d, frugal U Q (k :: K) n (c (Some d))) ->
    frugal U Q K (S n) (GetM k c)
| frugal_set : forall K n k d c, U k -> frugal U Q (k :: K) n c -> frugal U Q K (S n) (SetM k d c).

Lemma frugal_bind {A B} U (Q : A -> list key -> nat -> Prop) (R : B -> list key -> nat -> Prop) K n p (f : A -> prog B) :
  frugal U Q K n p -> (forall x K' n', Q x K' n' -> frugal U R K' n' (f x)) -> frugal U R K n (pbind p f).
Proof.
  intros H F. induction H; cbn [pbind].
  - apply F. auto.
  - constructor; auto.
  - constructor; auto.
Qed.

Lemma frugal_weaken {A} (U U' : key -> Prop) (Q Q' : A -> list key -> nat -> Prop) K n p :
  frugal U Q K n p -> (forall k, U k -> U' k) -> (forall x K' n', Q x K' n' -> Q' x K' n') -> frugal U' Q' K n p.
Proof. intros H F G. induction H; constructor; auto. Qed.

(** ** Suffixes *)
Definition suffix_of (p v : str) : Prop := exists front, v = front ++ p.
Lemma suffix_refl v : suffix_of v v. Proof. exists []. auto. Qed.
Lemma suffix_cons p c v : suffix_of p v -> suffix_of p (c :: v). Proof. intros (f & ->). exists (c :: f). auto. Qed.
Lemma suffix_tail p c v : suffix_of (c :: p) v -> suffix_of p v.
Proof. intros (f & ->). exists (f ++ [c]). rewrite <- app_assoc. auto. Qed.
Lemma suffix_trans p q v : suffix_of p q -> suffix_of q v -> suffix_of p v.
Proof. intros (f & ->) (g & ->). exists (g ++ f). rewrite app_assoc. auto. Qed.
Lemma suffix_nil v : suffix_of [] v. Proof. exists v. rewrite app_nil_r. auto. Qed.

Fixpoint suffixes (v : str) : list str := v :: match v with [] => [] | _ :: v' => suffixes v' end.
Lemma suffixes_In p v : suffix_of p v -> In p (suffixes v).
Proof.
  intros (f & ->). induction f as [|c f IH]; cbn [app].
  - destruct p; cbn; auto.
  - cbn [suffixes]. right. exact IH.
Qed.
Lemma suffixes_length v : length (suffixes v) = S (length v).
Proof. induction v; cbn in *; auto. Qed.

Lemma key_dec : forall k l : key, {k = l} + {k <> l}.
Proof. intros k l. destruct (key_eqb k l) eqn:E; [left; apply key_eqb_eq; auto|right; intros X; apply key_eqb_eq in X; congruence]. Qed.

Definition universe (v w : str) : list key :=
  nodup key_dec (flat_map (fun p => map (symmetric_pair p) (suffixes w)) (suffixes v)).

Lemma universe_In v w p q : suffix_of p v -> suffix_of q w -> In (symmetric_pair p q) (universe v w).
Proof.
  intros P Q. apply nodup_In, in_flat_map. exists p. split; [apply suffixes_In; auto|]. apply in_map, suffixes_In. auto.
Qed.
Lemma nodup_le {A} (dec : forall x y : A, {x = y} + {x <> y}) l : length (nodup dec l) <= length l.
Proof. induction l as [|x l IH]; cbn; auto. destruct (in_dec dec x l); cbn; lia. Qed.
Lemma universe_length v w : length (universe v w) <= suffix_pairs (v, w).
Proof.
  unfold universe, suffix_pairs. cbn [fst snd]. etransitivity; [apply nodup_le|].
  replace (1 + length v) with (length (suffixes v)) by apply suffixes_length.
  replace (1 + length w) with (length (suffixes w)) by apply suffixes_length.
  induction (suffixes v) as [|p ps IH]; cbn; auto. rewrite app_length, map_length. lia.
Qed.

Lemma discard_suffix a s b t : forall c x d y, discard a s b t = (c, x, d, y) ->
  suffix_of (c :: x) (a :: s) /\ suffix_of (d :: y) (b :: t).
Proof.
  revert a b t. induction s as [|a' s IH]; intros a b t c x d y; cbn [discard].
  - intros E. injection E as <- <- <- <-. auto using suffix_refl.
  - destruct t as [|b' t]; [intros E; injection E as <- <- <- <-; auto using suffix_refl|].
    destruct (ceqb a b); [|intros E; injection E as <- <- <- <-; auto using suffix_refl].
    intros E. apply IH in E. destruct E. auto using suffix_cons.
Qed.

Lemma f_suffix_suffix u n : suffix_of (f_suffix u n) u.
Proof.
  unfold f_suffix. destruct (n <? length u); [|apply suffix_nil]. exists (firstn (1 + n) u). symmetry. apply firstn_skipn.
Qed.

Lemma calls_suffix alg c x d y p q : In (p, q) (recursive_calls alg c x d y) -> suffix_of p (c :: x) /\ suffix_of q (d :: y).
Proof.
  assert (X : suffix_of x (c :: x)) by (apply suffix_cons, suffix_refl).
  assert (Y : suffix_of y (d :: y)) by (apply suffix_cons, suffix_refl).
  unfold recursive_calls. intros I. apply in_app_iff in I. destruct I as [I|I].
  - cbn [In] in I. destruct I as [I|[I|[I|[]]]]; injection I as <- <-; auto using suffix_refl.
  - destruct alg; [destruct I| |].
    + destruct x; [destruct I|]. destruct y; [destruct I|]. destruct (_ && _); [|destruct I].
      cbn [In] in I. destruct I as [I|[]]. injection I as <- <-. auto using f_suffix_suffix.
    + apply in_app_iff in I. destruct I as [I|I]; destruct (1 <? _); cbn [In] in I; try contradiction;
        destruct I as [I|[]]; injection I as <- <-; auto using f_suffix_suffix.
Qed.

(** ** Counting *)
Section Count.
  Variable U0 : list key.
  Hypothesis ND : NoDup U0.

  Definition cntK (K : list key) : nat := length (filter (inK K) U0).
  Definition remK (s : nat) (K : list key) : nat := length (filter (fun k => negb (inK K k) && (ksize k <=? s)) U0).

  Lemma rem_split s K K' : incl K K' -> (forall k, In k K' -> In k K \/ ksize k <= s) ->
    cntK K <= cntK K' /\ remK s K = remK s K' + (cntK K' - cntK K).
  Proof.
    intros I N. unfold cntK, remK. clear ND. induction U0 as [|k U IH]; [cbn; auto|]. destruct IH as [IH1 IH2]. cbn [filter].
    destruct (inK K k) eqn:E.
    - assert (inK K' k = true) as -> by (apply inK_In, I, inK_In; auto). cbn [negb andb length]. lia.
    - destruct (inK K' k) eqn:E'.
      + assert (ksize k <= s) as L. { apply inK_In in E'. destruct (N k E') as [X|X]; auto. apply inK_In in X. congruence. }
        apply Nat.leb_le in L. rewrite L. cbn [negb andb length]. lia.
      + cbn [negb andb]. destruct (ksize k <=? s); cbn [length]; lia.
  Qed.

  Lemma rem_mono s s' K : s <= s' -> remK s K <= remK s' K.
  Proof.
    intros L. unfold remK. clear ND. induction U0 as [|k U IH]; [cbn; auto|]. cbn [filter].
    destruct (negb (inK K k)); cbn [andb]; auto.
    destruct (Nat.leb_spec (ksize k) s), (Nat.leb_spec (ksize k) s'); cbn [length]; lia.
  Qed.

  Lemma rem_more s s' K k : s < s' -> In k U0 -> ~ In k K -> ksize k = s' -> 1 + remK s K <= remK s' K.
  Proof.
    intros L I N Z. unfold remK. clear ND. induction U0 as [|u U IH]; [destruct I|]. cbn [filter]. destruct I as [->|I].
    - apply inK_not in N. rewrite N. cbn [negb andb]. rewrite Z. destruct (Nat.leb_spec s' s); [lia|].
      destruct (Nat.leb_spec s' s'); [|lia]. cbn [length]. apply le_n_S.
      clear -L. induction U as [|u U IH]; [cbn; auto|]. cbn [filter]. destruct (negb (inK K u)); cbn [andb]; auto.
      destruct (Nat.leb_spec (ksize u) s), (Nat.leb_spec (ksize u) s'); cbn [length]; lia.
    - specialize (IH I). destruct (negb (inK K u)); cbn [andb]; auto.
      destruct (Nat.leb_spec (ksize u) s), (Nat.leb_spec (ksize u) s'); cbn [length]; lia.
  Qed.

  Lemma rem_pos s K k : In k U0 -> ~ In k K -> ksize k <= s -> 1 <= remK s K.
  Proof.
    intros I N Z. unfold remK. assert (X : In k (filter (fun k => negb (inK K k) && (ksize k <=? s)) U0)).
    { apply filter_In. split; auto. apply inK_not in N. rewrite N. apply Nat.leb_le in Z. rewrite Z. auto. }
    destruct (filter _ U0); [destruct X|cbn; lia].
  Qed.

  Lemma cnt_cons K k : In k U0 -> ~ In k K -> cntK (k :: K) = S (cntK K).
  Proof.
    intros I N. unfold cntK. revert ND I. induction U0 as [|u U IH]; intros D I; [destruct I|].
    inversion D as [|? ? Nu Du]; subst. cbn [filter]. change (inK (k :: K) u) with (key_eqb u k || inK K u).
    destruct I as [->|I].
    - assert (key_eqb k k = true) as -> by (apply key_eqb_eq; auto). apply inK_not in N. rewrite N. cbn. f_equal. f_equal.
      clear -Nu. induction U as [|u U IH]; auto. cbn [filter]. change (inK (k :: K) u) with (key_eqb u k || inK K u).
      destruct (key_eqb u k) eqn:E; [apply key_eqb_eq in E; subst; exfalso; apply Nu; cbn; auto|].
      cbn [orb]. rewrite IH by (intros X; apply Nu; right; auto). auto.
    - destruct (key_eqb u k) eqn:E; [apply key_eqb_eq in E; subst; contradiction|]. cbn [orb].
      destruct (inK K u); cbn; rewrite IH; auto.
  Qed.

  Lemma rem_length s K : remK s K <= length U0.
  Proof. unfold remK. induction U0 as [|u U IH]; cbn; auto. inversion ND; subst. destruct (_ && _); cbn; specialize (IH ltac:(auto)); lia. Qed.
  Lemma cnt_length K : cntK K <= length U0.
  Proof. unfold cntK. clear ND. induction U0 as [|u U IH]; cbn; auto. destruct (inK K u); cbn [length]; lia. Qed.

  (** The result of a call that spent its part of the budget. *)
  Definition spent (s : nat) (K : list key) (n : nat) (K' : list key) (n' : nat) : Prop :=
    incl K K' /\ (forall k, In k K' -> In k K \/ ksize k <= s) /\ n <= n' + 1 + 6 * (cntK K' - cntK K).

  Lemma try_calls_frugal rec k s K0 N0 : In k U0 -> ksize k = s -> ~ In k K0 -> forall cs mo K n,
    (mo = None -> cs <> []) ->
    (forall p q K n, In (p, q) cs -> 1 + 6 * remK (length p + length q) K <= n ->
       length p + length q < s /\ frugal (fun k => In k U0) (fun _ K' n' => spent (length p + length q) K n K' n') K n (rec p q)) ->
    incl K0 K -> (forall x, In x K -> In x K0 \/ ksize x < s) ->
    1 + length cs + 6 * remK (s - 1) K <= n -> N0 + length cs <= n + 6 + 6 * (cntK K - cntK K0) ->
    frugal (fun k => In k U0) (fun _ K' n' => spent s K0 N0 K' n') K n (try_calls rec k cs mo).
  Proof.
    intros IU Z NK. induction cs as [|[p q] cs IH]; intros mo K n Ne Rec Inc New Bud Tot; cbn [try_calls].
    - destruct mo as [m|]; [|specialize (Ne eq_refl); congruence]. destruct n as [|n]; [lia|]. unfold return_set.
      assert (NKk : ~ In k K). { intros X. destruct (New k X); [contradiction|lia]. }
      constructor; auto. constructor. split; [|split].
      + intros x I. right. auto.
      + intros x [<-|I]; [right; lia|]. destruct (New x I); auto. right. lia.
      + rewrite cnt_cons by auto. destruct (rem_split (s - 1) K0 K) as [A1 A2]; auto.
        { intros x I. destruct (New x I); auto. right. lia. }
        cbn [length] in Tot. lia.
    - destruct (Rec p q K n (or_introl eq_refl)) as [Ls Fr].
      { cbn [length] in Bud. pose proof (rem_mono (length p + length q) (s - 1) K). destruct (Rec p q K (1 + 6 * remK (length p + length q) K) (or_introl eq_refl) (le_n _)) as [L _]. lia. }
      eapply frugal_bind; [exact Fr|]. intros d K' n' (I1 & N1 & C1). cbn [length] in *.
      destruct (rem_split (length p + length q) K K' I1 N1) as [A1 _].
      assert (B2 : remK (s - 1) K = remK (s - 1) K' + (cntK K' - cntK K)).
      { apply rem_split; auto. intros x I. destruct (N1 x I); auto. right. lia. }
      assert (New' : forall x, In x K' -> In x K0 \/ ksize x < s). { intros x I. destruct (N1 x I) as [X|X]; auto. right. lia. }
      assert (Inc' : incl K0 K') by (intros x I; auto).
      destruct (rem_split (s - 1) K0 K) as [A3 _]; auto. { intros x I. destruct (New x I); auto. right. lia. }
      destruct (0 =? d).
      + destruct n' as [|n']; [lia|]. unfold return_set.
        assert (NKk : ~ In k K'). { intros X. destruct (New' k X); [contradiction|lia]. }
        constructor; auto. constructor. split; [|split].
        * intros x I. right. auto.
        * intros x [<-|I]; [right; lia|]. destruct (New' x I); auto. right. lia.
        * rewrite cnt_cons by auto. lia.
      + apply IH; auto; try lia.
        * discriminate.
        * intros p' q' K'' n'' I. apply Rec. right. auto.
  Qed.

  Lemma between_frugal alg v0 w0 : (forall p q, suffix_of p v0 -> suffix_of q w0 -> In (symmetric_pair p q) U0) ->
    forall f v w K n, length v + length w < f -> suffix_of v v0 -> suffix_of w w0 ->
    1 + 6 * remK (length v + length w) K <= n ->
    frugal (fun k => In k U0) (fun _ K' n' => spent (length v + length w) K n K' n') K n (between_fuel f alg v w).
  Proof.
    intros HU. induction f as [|f IH]; intros v w K n Lf Sv Sw Bud; [lia|]. cbn [between_fuel].
    set (k := symmetric_pair v w). assert (IU : In k U0) by (apply HU; auto). assert (Zk : ksize k = length v + length w) by apply ksize_pair.
    destruct n as [|n]; [lia|]. constructor.
    - intros NK.
      assert (Leaf : forall d, frugal (fun k => In k U0) (fun _ K' n' => spent (length v + length w) K (S n) K' n') K n (return_set k d)).
      { intros d. pose proof (rem_pos (length v + length w) K k IU NK ltac:(lia)). destruct n as [|n]; [lia|]. unfold return_set.
        constructor; auto. constructor. split; [intros x I; right; auto|]. split.
        - intros x [<-|I]; auto. right. lia.
        - rewrite cnt_cons by auto. lia. }
      destruct v as [|a s]; [apply Leaf|]. destruct w as [|b t]; [apply Leaf|].
      destruct (discard a s b t) as [[[c x] d] y] eqn:E. destruct (discard_suffix _ _ _ _ _ _ _ _ E) as [Dv Dw].
      destruct (discard_spec _ _ _ _ _ _ _ _ E) as (_ & _ & Dl).
      destruct (ceqb c d); [destruct x; apply Leaf|].
      destruct (calls_length alg c x d y) as [Cl Cn].
      pose proof (rem_more (length (a :: s) + length (b :: t) - 1) (length (a :: s) + length (b :: t)) K k ltac:(cbn; lia) IU NK Zk).
      apply try_calls_frugal; auto; try lia.
      * intros p q K' n' I B. pose proof (calls_upper alg c x d y p q I) as [_ Cu]. destruct (calls_suffix _ _ _ _ _ _ _ I) as [Sp Sq].
        split; [lia|]. apply IH; auto; try lia; eapply suffix_trans; eauto; eapply suffix_trans; eauto.
      * intros x' I. exact I.
    - intros d. constructor. split; [intros x I; right; auto|]. split.
      + intros x [<-|I]; auto. right. lia.
      + lia.
  Qed.
End Count.

(** ** Calls and threads *)
Definition cost (cs : list (str * str)) : nat := list_sum (map (fun vw => 6 * suffix_pairs vw + 1) cs).
Definition entered (cs : list (str * str)) : list key := flat_map (fun vw => universe (fst vw) (snd vw)) cs.

Lemma calls_frugal alg cs : forall K n, cost cs <= n ->
  frugal (fun k => In k (entered cs)) (fun _ _ _ => True) K n (calls alg cs).
Proof.
  induction cs as [|[v w] cs IH]; intros K n L; cbn [calls]; [constructor; auto|].
  change (cost ((v, w) :: cs)) with (6 * suffix_pairs (v, w) + 1 + cost cs) in L.
  pose proof (universe_length v w) as UL. set (U := universe v w) in *. assert (ND : NoDup U) by apply NoDup_nodup.
  eapply frugal_bind with (Q := fun _ K' n' => spent U (length v + length w) K n K' n').
  - eapply frugal_weaken with (U := fun k => In k U);
      [apply (between_frugal U ND alg v w (universe_In v w)); auto using suffix_refl| |intros ? ? ? X; exact X].
    + pose proof (rem_length U ND (length v + length w) K). lia.
    + intros k I. unfold entered. apply in_flat_map. exists (v, w). split; [left; auto|exact I].
  - intros d K' n' (_ & _ & S). pose proof (cnt_length U K'). eapply frugal_bind with (Q := fun _ _ _ => True).
    + eapply frugal_weaken; [apply IH; lia| |auto]. intros k I. unfold entered in *. cbn [flat_map]. apply in_app_iff. auto.
    + intros; constructor; auto.
Qed.

Definition has_key (m : memo) (k : key) : Prop := memo_get m k <> None.

Lemma has_key_set m k d k' : has_key (memo_set m k d) k' <-> k' = k \/ has_key m k'.
Proof.
  unfold has_key, memo_set. cbn [memo_get]. destruct (key_eqb k k') eqn:E.
  - apply key_eqb_eq in E. split; auto. discriminate.
  - split; auto. intros [->|H]; auto. assert (key_eqb k k = true) by (apply key_eqb_eq; auto). congruence.
Qed.

Lemma frugal_step {A} (U : key -> Prop) Q K n m (p : prog A) m' p' : frugal U Q K n p -> (forall k, In k K -> has_key m k) ->
  thread_step m p m' p' ->
  (forall k, has_key m k -> has_key m' k) /\ (forall k, has_key m' k -> has_key m k \/ U k) /\
  exists n' K', n = S n' /\ frugal U Q K' n' p' /\ forall k, In k K' -> has_key m' k.
Proof.
  intros F H S. inversion S; subst; inversion F; subst.
  - split; auto. split; auto. destruct (memo_get m' k) as [d|] eqn:E.
    + exists n0, (k :: K). split; auto. split; auto. intros x [<-|I]; auto. unfold has_key. congruence.
    + exists n0, K. split; auto. split; auto. match goal with X : ~ In k K -> _ |- _ => apply X end. intros I. apply (H k I). auto.
  - split; [intros; apply has_key_set; auto|]. split; [intros x X; apply has_key_set in X; destruct X as [->|X]; auto|].
    exists n0, (k :: K). split; auto. split; auto. intros x [<-|I]; apply has_key_set; auto.
Qed.

(** Thread by thread: the number of turns taken and the calls to be made. *)
Inductive pool_frugal (m : memo) : list (list (str * str)) -> list nat -> list (prog (list nat)) -> Prop :=
| pf_nil : pool_frugal m [] [] []
| pf_cons : forall cs css b bs p ps K n,
    frugal (fun k => In k (entered cs)) (fun _ _ _ => True) K n p -> (forall k, In k K -> has_key m k) -> b + n <= cost cs ->
    pool_frugal m css bs ps -> pool_frugal m (cs :: css) (b :: bs) (p :: ps).

Lemma pool_frugal_mono m m' css bs ps : (forall k, has_key m k -> has_key m' k) -> pool_frugal m css bs ps -> pool_frugal m' css bs ps.
Proof. intros H. induction 1; econstructor; eauto. Qed.

Fixpoint bump_at (i : nat) (bs : list nat) : list nat :=
  match bs, i with [], _ => [] | b :: bs', O => S b :: bs' | b :: bs', S i' => b :: bump_at i' bs' end.

Lemma pool_frugal_step m css bs pre p post m' p' : pool_frugal m css bs (pre ++ p :: post) -> thread_step m p m' p' ->
  pool_frugal m' css (bump_at (length pre) bs) (pre ++ p' :: post) /\
  (forall k, has_key m k -> has_key m' k) /\ (forall k, has_key m' k -> has_key m k \/ exists cs, In cs css /\ In k (entered cs)).
Proof.
  intros F S. revert css bs F. induction pre as [|q pre IH]; cbn [app length]; intros css bs F; inversion F; subst.
  - match goal with X : frugal _ _ _ _ p |- _ => destruct (frugal_step _ _ _ _ _ _ _ _ X ltac:(eauto) S) as (M1 & M2 & n' & K' & -> & F' & H') end.
    split; [|split; auto].
    + cbn [bump_at]. econstructor; eauto; [lia|]. eapply pool_frugal_mono; eauto.
    + intros k Hk. destruct (M2 k Hk); auto. right. eexists. split; [left; reflexivity|auto].
  - match goal with X : pool_frugal _ _ _ (pre ++ _) |- _ => destruct (IH _ _ X) as (F' & M1 & M2) end. split; [|split; auto].
    + cbn [bump_at]. econstructor; eauto.
    + intros k Hk. destruct (M2 k Hk) as [X|(cs' & I & X)]; auto. right. exists cs'. split; [right|]; auto.
Qed.

Lemma pool_frugal_scheduled turns c c' : scheduled turns c c' -> forall css bs, pool_frugal (fst c) css bs (snd c) ->
  pool_frugal (fst c') css (fold_left (fun bs i => bump_at i bs) turns bs) (snd c') /\
  forall k, has_key (fst c') k -> has_key (fst c) k \/ exists cs, In cs css /\ In k (entered cs).
Proof.
  induction 1 as [c|turns m m' pre p p' post c S _ IH]; intros css bs F; cbn [fst snd] in *; [split; auto|].
  destruct (pool_frugal_step _ _ _ _ _ _ _ _ F S) as (F' & _ & M2). destruct (IH _ _ F') as [F2 M3]. split; auto.
  intros k Hk. destruct (M3 k Hk); auto.
Qed.

Lemma bump_at_nth i j bs : nth_error (bump_at i bs) j = match nth_error bs j with Some b => Some (if Nat.eqb i j then S b else b) | None => None end.
Proof.
  revert i j. induction bs as [|b bs IH]; intros [|i] [|j]; cbn [bump_at nth_error]; auto.
  - cbn. destruct (nth_error bs j); auto.
  - rewrite IH. reflexivity.
Qed.

Lemma turns_nth turns : forall i bs b, nth_error bs i = Some b ->
  nth_error (fold_left (fun bs i => bump_at i bs) turns bs) i = Some (turns_of i turns + b).
Proof.
  unfold turns_of. induction turns as [|t turns IH]; intros i bs b N; auto. cbn [fold_left count_occ].
  rewrite IH with (b := if Nat.eqb t i then S b else b).
  - destruct (Nat.eqb_spec t i), (Nat.eq_dec t i); try contradiction; f_equal; lia.
  - rewrite bump_at_nth, N. reflexivity.
Qed.

Lemma pool_frugal_nth m css bs ps i cs b : pool_frugal m css bs ps -> nth_error css i = Some cs -> nth_error bs i = Some b -> b <= cost cs.
Proof.
  intros F. revert i. induction F; intros [|i] A B; try discriminate; cbn in A, B.
  - injection A as ->. injection B as ->. lia.
  - eauto.
Qed.

Lemma pool_frugal_start alg css : pool_frugal [] css (map (fun _ => 0) css) (map (calls alg) css).
Proof.
  induction css as [|cs css IH]; cbn [map]; [constructor|].
  apply pf_cons with (K := []) (n := cost cs); auto; [apply calls_frugal; auto|intros k []].
Qed.

Lemma entered_length cs : length (entered cs) <= list_sum (map suffix_pairs cs).
Proof.
  induction cs as [|[v w] cs IH]; auto. unfold entered in *. cbn [flat_map map]. rewrite app_length. cbn [fst snd].
  change (list_sum (suffix_pairs (v, w) :: map suffix_pairs cs)) with (suffix_pairs (v, w) + list_sum (map suffix_pairs cs)).
  pose proof (universe_length v w). lia.
Qed.
