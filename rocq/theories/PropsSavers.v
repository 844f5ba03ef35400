(** * C116: Saving to one file at the same time.

    What is in the file, and what is read from it, when threads or processes save
    and load at the same time. *)
From Coq Require Import Sorting.Permutation.
From Verif Require Import Base ModelDawg ModelSerial ModelWire SpecDawg SpecSerial SpecWire SpecQuery ModelQuery ModelSavers.
From Verif Require PropsWire PropsQuery PropsDawg PropsDemo PropsStream HeapProofs DawgProofs.
Local Open Scope nat_scope.

(** ** Savers that write the same bytes *)

(** Every byte of the file is right or 0, those before [k] are right. *)
Definition sound (bs file : list byte) (k : nat) : Prop :=
  length file <= length bs /\ k <= length file /\
  forall i b, nth_error file i = Some b -> nth_error bs i = Some b \/ (k <= i /\ b = 0%N).

Definition fits (bs : list byte) (p : process) : Prop :=
  match p with
  | Save bs' => bs' = bs
  | Writing o rest => rest = skipn o bs /\ o <= length bs
  | _ => True
  end.

Lemma put_byte_length : forall f o b, length (put_byte f o b) = Nat.max (length f) (S o).
Proof.
  intros f o b. unfold put_byte. destruct (Nat.ltb_spec o (length f)).
  - rewrite app_length, firstn_length. cbn [length]. rewrite skipn_length. lia.
  - rewrite !app_length, repeat_length. cbn [length]. lia.
Qed.

Lemma put_byte_nth : forall f o b i,
  nth_error (put_byte f o b) i =
    if Nat.eqb i o then Some b
    else if Nat.ltb i (length f) then nth_error f i
    else if Nat.ltb i o then Some 0%N else None.
Proof.
  intros f o b i. unfold put_byte. destruct (Nat.ltb_spec o (length f)) as [L|L].
  - destruct (Nat.eqb_spec i o) as [->|N].
    + rewrite nth_error_app2 by (rewrite firstn_length; lia). rewrite firstn_length, Nat.min_l, Nat.sub_diag by lia. reflexivity.
    + destruct (Nat.ltb_spec i o).
      * rewrite nth_error_app1 by (rewrite firstn_length; lia). rewrite (proj2 (Nat.ltb_lt i (length f))) by lia.
        rewrite <- (firstn_skipn o f) at 2. rewrite nth_error_app1 by (rewrite firstn_length; lia). reflexivity.
      * rewrite nth_error_app2 by (rewrite firstn_length; lia). rewrite firstn_length, Nat.min_l by lia.
        replace (i - o) with (S (i - S o)) by lia. cbn [nth_error].
        destruct (Nat.ltb_spec i (length f)).
        -- rewrite <- (firstn_skipn (S o) f) at 2. rewrite nth_error_app2 by (rewrite firstn_length; lia).
           f_equal. rewrite firstn_length. lia.
        -- apply nth_error_None. rewrite skipn_length. lia.
  - destruct (Nat.eqb_spec i o) as [->|N].
    + rewrite nth_error_app2 by lia. rewrite nth_error_app2 by (rewrite repeat_length; lia).
      rewrite repeat_length, Nat.sub_diag. reflexivity.
    + destruct (Nat.ltb_spec i (length f)); [now rewrite nth_error_app1 by lia|].
      rewrite nth_error_app2 by lia. destruct (Nat.ltb_spec i o).
      * rewrite nth_error_app1 by (rewrite repeat_length; lia). apply nth_error_repeat. lia.
      * apply nth_error_None. rewrite app_length, repeat_length. cbn [length]. lia.
Qed.

Lemma skipn_cons : forall A (l : list A) o b rest, b :: rest = skipn o l -> nth_error l o = Some b /\ rest = skipn (S o) l.
Proof.
  intros A l. induction l as [|a l IH]; intros [|o] b rest E; try discriminate; cbn in *.
  - injection E as <- <-. auto.
  - apply IH. exact E.
Qed.

Lemma sound_write : forall bs f k o b, sound bs f k -> nth_error bs o = Some b ->
  sound bs (put_byte f o b) (if Nat.eqb k o then S o else k).
Proof.
  intros bs f k o b (L & K & R) E. assert (Lo : o < length bs) by (apply nth_error_Some; congruence).
  unfold sound. rewrite put_byte_length. split; [lia|]. split; [destruct (Nat.eqb_spec k o); lia|].
  intros i c I. rewrite put_byte_nth in I. destruct (Nat.eqb_spec i o) as [->|N]; [injection I as <-; auto|].
  destruct (Nat.ltb_spec i (length f)).
  - destruct (R _ _ I) as [R'|(R' & ->)]; auto. right. split; auto. destruct (Nat.eqb_spec k o); lia.
  - destruct (Nat.ltb_spec i o); [|discriminate]. injection I as <-. right. split; auto. destruct (Nat.eqb_spec k o); lia.
Qed.

(** How far the one that opened the file last has come. *)
Definition reached (f : list byte) (bs : list byte) (p : process) : Prop :=
  match p with
  | Writing o _ => sound bs f o
  | Saved => sound bs f (length bs)
  | _ => sound bs f 0
  end.

Lemma sound_less : forall bs f k k', sound bs f k -> k' <= k -> sound bs f k'.
Proof.
  intros bs f k k' (L & K & R) H. split; [auto|]. split; [lia|]. intros i b I. destruct (R _ _ I) as [|(A & ->)]; [auto|]. right. split; [lia|auto].
Qed.

Lemma sound_more : forall bs f k o b, sound bs f k -> nth_error bs o = Some b -> sound bs (put_byte f o b) k.
Proof.
  intros bs f k o b S E. eapply sound_less; [apply sound_write; eauto|]. destruct (Nat.eqb_spec k o); lia.
Qed.

Lemma reached_write : forall bs f p o b, reached f bs p -> nth_error bs o = Some b -> reached (put_byte f o b) bs p.
Proof. intros bs f p o b R E. destruct p; cbn [reached] in *; now apply sound_more. Qed.

Lemma nth_split : forall A (l : list A) before x after i, l = before ++ x :: after ->
  nth_error l i = if Nat.eqb i (length before) then Some x else nth_error (before ++ x :: after) i.
Proof. intros A l before x after i ->. destruct (Nat.eqb_spec i (length before)) as [->|]; auto. rewrite nth_error_app2, Nat.sub_diag; auto. Qed.

Lemma nth_other : forall A (before : list A) x y after i, i <> length before ->
  nth_error (before ++ x :: after) i = nth_error (before ++ y :: after) i.
Proof.
  intros A before x y after i N. destruct (Nat.lt_ge_cases i (length before)).
  - now rewrite !nth_error_app1 by auto.
  - rewrite !nth_error_app2 by auto. destruct (i - length before) eqn:E; [lia|]. reflexivity.
Qed.

Lemma nth_this : forall A (before : list A) x after, nth_error (before ++ x :: after) (length before) = Some x.
Proof. intros. rewrite nth_error_app2, Nat.sub_diag; auto. Qed.

(** The invariant from the last opening on. *)
Lemma since_last : forall bs s events s', happens s events s' ->
  forall f ps i, s = (Some f, ps) -> Forall (fits bs) ps -> (exists p, nth_error ps i = Some p /\ reached f bs p) ->
  (forall j, ~ In (j, Opens) events) ->
  exists f', fst s' = Some f' /\ Forall (fits bs) (snd s') /\ exists p, nth_error (snd s') i = Some p /\ reached f' bs p.
Proof.
  intros bs s events s' H. induction H as [s|s events f1 before p after e f1' p' H IH A]; intros f ps i E F R No.
  - subst s. cbn. eauto.
  - destruct (IH f ps i E F R) as (f' & Ef & Fs & q & Eq & Rq).
    { intros j I. apply (No j), in_or_app. auto. }
    cbn [fst snd] in *. subst f1.
    assert (Fp : fits bs p) by (rewrite Forall_forall in Fs; apply Fs, in_elt).
    assert (Fr : forall p', fits bs p' -> Forall (fits bs) (before ++ p' :: after)).
    { intros p0 H0. apply Forall_app in Fs. destruct Fs as (F1 & F2). apply Forall_app. split; auto. inversion F2; constructor; auto. }
    assert (Other : forall f2 p2, fits bs p2 -> (i = length before -> reached f2 bs p2) -> (i <> length before -> reached f2 bs q) ->
      exists f'0, Some f2 = Some f'0 /\ Forall (fits bs) (before ++ p2 :: after) /\
        exists p0, nth_error (before ++ p2 :: after) i = Some p0 /\ reached f'0 bs p0).
    { intros f2 p2 Fp2 A1 A2. exists f2. split; auto. split; [now apply Fr|]. destruct (Nat.eq_dec i (length before)) as [->|N].
      - exists p2. split; [apply nth_this|auto].
      - exists q. split; [|auto]. now rewrite (nth_other _ _ p2 p). }
    assert (Me : i = length before -> q = p) by (intros ->; rewrite nth_this in Eq; congruence).
    inversion A; subst.
    + exfalso. apply (No (length before)), in_or_app. right. now left.
    + destruct Fp as (Er & Lo). destruct (skipn_cons _ _ _ _ _ Er) as (Eb & Er'). apply Other.
      * cbn. split; auto. apply nth_error_Some. congruence.
      * intros I. rewrite (Me I) in Rq. cbn in Rq |- *. pose proof (sound_write _ _ _ _ _ Rq Eb) as So. now rewrite Nat.eqb_refl in So.
      * intros _. now apply reached_write.
    + destruct Fp as (Er & Lo). apply Other; cbn; auto. intros I. rewrite (Me I) in Rq. cbn in Rq.
      assert (o = length bs); [|subst; auto]. apply (f_equal (@length _)) in Er. rewrite skipn_length in Er. cbn in Er. lia.
    + apply Other; cbn; auto. intros I. rewrite (Me I) in Rq. exact Rq.
    + apply Other; cbn; auto. intros I. rewrite (Me I) in Rq. exact Rq.
    + apply Other; cbn; auto. intros I. rewrite (Me I) in Rq. exact Rq.
    + apply Other; cbn; auto. intros I. rewrite (Me I) in Rq. cbn in Rq. eapply sound_less; eauto. lia.
    + apply Other; cbn; auto. intros I. rewrite (Me I) in Rq. exact Rq.
Qed.

Lemma fits_kept : forall bs s events s', happens s events s' -> Forall (fits bs) (snd s) -> Forall (fits bs) (snd s').
Proof.
  intros bs s events s' H. induction H as [s|s events f1 before p after e f1' p' H IH A]; intros F; auto. specialize (IH F). cbn [snd] in *.
  apply Forall_app in IH. destruct IH as (F1 & F2). apply Forall_app. split; auto. inversion F2 as [|? ? Fp F3]; subst. constructor; auto.
  inversion A; subst; cbn; auto.
  - cbn in Fp. subst. split; [reflexivity|lia].
  - destruct Fp as (Er & Lo). destruct (skipn_cons _ _ _ _ _ Er) as (Eb & Er'). split; auto. apply nth_error_Some. congruence.
Qed.

Lemma happens_app : forall s1 e1 e2 s3, happens s1 (e1 ++ e2) s3 -> exists s2, happens s1 e1 s2 /\ happens s2 e2 s3.
Proof.
  intros s1 e1 e2. induction e2 as [|x e2 IH] using rev_ind; intros s3 H.
  - rewrite app_nil_r in H. exists s3. split; [auto|constructor].
  - rewrite app_assoc in H. inversion H as [s E1 E2 E3|s events f before p after e f' p' H' A E1 E2 E3].
    + destruct (e1 ++ e2); discriminate.
    + apply app_inj_tail in E2. destruct E2 as (-> & <-). subst. destruct (IH _ H') as (s2 & A1 & A2). exists s2. split; auto.
      econstructor; eauto.
Qed.

(** Closing is done once, by somebody who is done with it. *)
Lemma stays_saved : forall s events s' i, happens s events s' -> nth_error (snd s) i = Some Saved -> nth_error (snd s') i = Some Saved.
Proof.
  intros s events s' i H. induction H as [s|s events f1 before p after e f1' p' H IH A]; intros E; auto. specialize (IH E). cbn [snd] in *.
  destruct (Nat.eq_dec i (length before)) as [->|N].
  - rewrite nth_this in IH. injection IH as ->. inversion A.
  - now rewrite (nth_other _ _ p' p).
Qed.

Lemma closes_saved : forall s events s' i, happens s events s' -> In (i, Closes) events -> nth_error (snd s') i = Some Saved.
Proof.
  intros s events s' i H I. apply in_split in I. destruct I as (e1 & e2 & ->).
  change (e1 ++ (i, Closes) :: e2) with (e1 ++ [(i, Closes)] ++ e2) in H. rewrite app_assoc in H.
  apply happens_app in H. destruct H as (s2 & H1 & H2). eapply stays_saved; eauto.
  inversion H1 as [s0 E1 E2 E3|s0 events f before p after e f' p' H' A E1 E2 E3].
  - destruct e1; discriminate.
  - apply app_inj_tail in E2. destruct E2 as (_ & E2). injection E2 as <- ->. cbn [snd]. inversion A; subst; apply nth_this.
Qed.

(** Everybody who saves writes [bs]: several threads that save the same dictionary.
    However they take turns and whoever is killed, as soon as the one that opened
    the file last has closed it, the file is as if it had been alone. *)
Theorem C116_same : forall bs file ps events file' ps' before i after,
  (forall p, In p ps -> p = Save bs \/ p = Load) ->
  happens (file, ps) events (file', ps') ->
  events = before ++ (i, Opens) :: after -> (forall j, ~ In (j, Opens) after) -> In (i, Closes) after ->
  file' = Some bs.
Proof.
  intros bs file ps events file' ps' before i after P H -> No Cl.
  change (before ++ (i, Opens) :: after) with (before ++ [(i, Opens)] ++ after) in H. rewrite app_assoc in H.
  apply happens_app in H. destruct H as (s2 & H1 & H2).
  assert (F0 : Forall (fits bs) ps) by (apply Forall_forall; intros p I; destruct (P p I) as [->| ->]; cbn; auto).
  pose proof (fits_kept _ _ _ _ H1 F0) as F2.
  assert (exists f, fst s2 = Some f /\ exists p, nth_error (snd s2) i = Some p /\ reached f bs p) as (f & Ef & R).
  { inversion H1 as [s0 E1 E2 E3|s0 events f b p a e f' p' H' A E1 E2 E3].
    - destruct before; discriminate.
    - apply app_inj_tail in E2. destruct E2 as (_ & E2). injection E2 as <- ->. cbn [fst snd]. inversion A; subst.
      exists []. split; auto. eexists. split; [apply nth_this|]. cbn. split; [cbn; lia|]. split; [auto|]. intros j c J. destruct j; discriminate. }
  destruct s2 as (f2 & ps2). cbn [fst snd] in *. subst f2.
  destruct (since_last bs _ _ _ H2 f ps2 i eq_refl F2 R No) as (f' & Ef' & _ & p & Ep & Rp). cbn [fst snd] in *.
  pose proof (closes_saved _ _ _ _ H2 Cl) as Cs. cbn [snd] in Cs. rewrite Cs in Ep. injection Ep as <-. rewrite Ef'. f_equal. cbn in Rp. destruct Rp as (L & K & R').
  clear - L K R'. assert (forall i, nth_error f' i = nth_error bs i).
  { intros i. destruct (nth_error f' i) as [b|] eqn:E.
    - destruct (R' _ _ E) as [|(Q & _)]; auto. assert (i < length f') by (apply nth_error_Some; congruence). lia.
    - symmetry. apply nth_error_None. apply nth_error_None in E. lia. }
  clear - H. revert bs H. induction f' as [|a f' IH]; intros [|b bs] H; auto; [specialize (H 0); discriminate|specialize (H 0); discriminate|].
  f_equal; [specialize (H 0); cbn in H; congruence|]. apply IH. intros i. exact (H (S i)).
Qed.
Print Assumptions C116_same.

(** So the file is read back as the dictionary. *)
Theorem C116_dictionary : forall terms h d m file ps events file' ps' before i after alloc h1,
  dictionary terms h d -> addresses_fit h -> runs_to (fun fuel => to_protobuf fuel h d) m -> not_too_long m -> allocator alloc ->
  (forall p, In p ps -> p = Save (encode m) \/ p = Load) ->
  happens (file, ps) events (file', ps') ->
  events = before ++ (i, Opens) :: after -> (forall j, ~ In (j, Opens) after) -> In (i, Closes) after ->
  exists h2 b, deserialize_file alloc h1 file' = Ok (h2, Some b) /\ dictionary terms h2 (b_dawg b) /\ d_size (b_dawg b) = d_size d /\
    forall w, contains h2 (b_dawg b) w = contains h d w.
Proof.
  intros terms h d m file ps events file' ps' before i after alloc h1 D Af R Lm A P H E No Cl.
  rewrite (C116_same _ _ _ _ _ _ _ _ _ P H E No Cl).
  assert (Sp : splitter (fun bs => [bs])) by (intros bs; apply app_nil_r).
  destruct (PropsWire.C54_file _ _ _ _ 8191%N (fun bs => [bs]) (N.of_nat (length (encode m))) None alloc h1 D Af R Lm Sp ltac:(lia) A)
    as (bytes & Rs & h2 & b & Ds & D2 & Sz & C & _).
  destruct (PropsWire.C56_result _ _ _ _ 8191%N (fun bs => [bs]) (N.of_nat (length (encode m))) None D R Sp) as (_ & _ & Q).
  destruct (Q Lm) as (result & Rs' & _). pose proof (DawgProofs.runs_to_det _ _ _ _ Rs Rs') as X. injection X as _ X.
  rewrite Nnat.Nat2N.id, firstn_all in X. subst bytes. exists h2, b. auto.
Qed.
Print Assumptions C116_dictionary.

(** ** Loading while somebody saves *)

Definition prefix_of (bs some : list byte) : Prop := exists back, bs = some ++ back.

Definition saver_ok (bs : list byte) (f : option (list byte)) (p : process) : Prop :=
  match p with
  | Save bs' => bs' = bs
  | Writing o rest => exists f0, f = Some f0 /\ o = length f0 /\ bs = f0 ++ rest
  | Saved | Killed => True
  | _ => False
  end.
Definition reader_ok (bs : list byte) (p : process) : Prop :=
  match p with
  | Load | Killed | Loaded None => True
  | Reading o so_far => o = length so_far /\ prefix_of bs so_far
  | Loaded (Some so_far) => prefix_of bs so_far
  | _ => False
  end.
Definition file_ok (bs : list byte) (f : option (list byte)) : Prop :=
  match f with Some f0 => prefix_of bs f0 | None => True end.

Lemma prefix_next : forall bs f so_far b, prefix_of bs f -> prefix_of bs so_far -> nth_error f (length so_far) = Some b -> prefix_of bs (so_far ++ [b]).
Proof.
  intros bs f so_far b (x & ->) (y & E) N.
  assert (N' : nth_error (f ++ x) (length so_far) = Some b) by (rewrite nth_error_app1; [auto|apply nth_error_Some; congruence]).
  rewrite E, nth_error_app2, Nat.sub_diag in N' by lia. destruct y as [|c y]; [discriminate|]. injection N' as ->.
  exists y. rewrite <- app_assoc. exact E.
Qed.

Lemma one_saver : forall bs s events s', happens s events s' -> forall k,
  file_ok bs (fst s) -> (forall j p, nth_error (snd s) j = Some p -> if Nat.eqb j k then saver_ok bs (fst s) p else reader_ok bs p) ->
  file_ok bs (fst s') /\ forall j p, nth_error (snd s') j = Some p -> if Nat.eqb j k then saver_ok bs (fst s') p else reader_ok bs p.
Proof.
  intros bs s events s' H. induction H as [s|s events f before p after e f' p' H IH A]; intros k Fo Po; auto.
  destruct (IH k Fo Po) as (F1 & P1). clear IH. cbn [fst snd] in *. pose proof (P1 _ _ (nth_this _ before p after)) as Pp.
  assert (K : forall f2 p2, file_ok bs f2 -> (if Nat.eqb (length before) k then saver_ok bs f2 p2 else reader_ok bs p2) ->
    (length before = k \/ f2 = f) ->
    file_ok bs f2 /\ forall j p, nth_error (before ++ p2 :: after) j = Some p -> if Nat.eqb j k then saver_ok bs f2 p else reader_ok bs p).
  { intros f2 p2 Ff Fp Ch. split; auto. intros j q E. destruct (Nat.eq_dec j (length before)) as [->|N].
    - rewrite nth_this in E. now injection E as <-.
    - rewrite (nth_other _ _ p2 p) in E by auto. specialize (P1 _ _ E). destruct (Nat.eqb_spec j k) as [->|]; auto.
      destruct Ch as [Ch| ->]; [congruence|auto]. }
  revert Pp K. destruct (Nat.eqb_spec (length before) k) as [Ek|Ek]; intros Pp K; inversion A; subst f' p' p e; try subst f; try (cbn in Pp; contradiction).
  - cbn in Pp. subst. apply K; auto; [exists bs; reflexivity|exists []; auto].
  - destruct Pp as (f1 & Ef & Eo & Eb). injection Ef as <-.
    assert (Ea : bs = put_byte f0 o b ++ rest).
    { unfold put_byte. rewrite (proj2 (Nat.ltb_ge o (length f0))) by lia. rewrite Eo, Nat.sub_diag. cbn. rewrite <- app_assoc. exact Eb. }
    apply K; auto; [exists rest; exact Ea|]. exists (put_byte f0 o b). rewrite put_byte_length. split; auto. split; [lia|exact Ea].
  - apply K; cbn; auto.
  - apply K; cbn; auto.
  - apply K; auto. cbn. split; auto. exists bs. reflexivity.
  - apply K; cbn; auto.
  - destruct Pp as (Eo & Pr). apply K; auto. cbn. rewrite app_length. cbn [length].
    split; [lia|]. subst o. cbn in F1. exact (prefix_next bs f0 so_far b F1 Pr H0).
  - destruct Pp as (Eo & Pr). apply K; cbn; auto.
  - apply K; cbn; auto.
Qed.

(** One thread or process saves, any number of others load, at any time, and the
    file did not exist or was the same before: whatever they get is the beginning
    of what is saved, or all of it.  What becomes of a beginning says C55. *)
Theorem C116_loading : forall bs file before after events file' ps' got,
  file = None \/ file = Some bs -> (forall p, In p (before ++ after) -> p = Load) ->
  happens (file, before ++ Save bs :: after) events (file', ps') -> In (Loaded (Some got)) ps' ->
  got = bs \/ cut_short got bs.
Proof.
  intros bs file before after events file' ps' got F0 P H I.
  destruct (one_saver bs _ _ _ H (length before)) as (_ & Q).
  - cbn. destruct F0 as [->| ->]; cbn; auto. exists []. now rewrite app_nil_r.
  - cbn [fst snd]. intros j p E. destruct (Nat.eqb_spec j (length before)) as [->|N].
    + rewrite nth_this in E. injection E as <-. cbn. auto.
    + assert (In p (before ++ after)) as J.
      { destruct (Nat.lt_ge_cases j (length before)) as [L|L].
        - rewrite nth_error_app1 in E by auto. apply in_or_app. left. eapply nth_error_In; eauto.
        - rewrite nth_error_app2 in E by auto. destruct (j - length before) eqn:X; [lia|]. apply in_or_app. right. cbn in E. eapply nth_error_In; eauto. }
      rewrite (P _ J). exact Logic.I.
  - apply In_nth_error in I. destruct I as (j & E). specialize (Q _ _ E). cbn [fst snd] in Q. destruct (Nat.eqb j (length before)); [destruct Q|].
    cbn in Q. destruct Q as ([|b back] & E'); [left; now rewrite app_nil_r in E'|right]. exists (b :: back). split; [discriminate|auto].
Qed.
Print Assumptions C116_loading.

(** ** Loading while several save the same *)

Definition patchy (bs got : list byte) : Prop :=
  length got <= length bs /\ forall i b, nth_error got i = Some b -> nth_error bs i = Some b \/ b = 0%N.

Definition party_ok (bs : list byte) (p : process) : Prop :=
  match p with
  | Save bs' => bs' = bs
  | Writing o rest => rest = skipn o bs /\ o <= length bs
  | Reading o so_far => o = length so_far /\ patchy bs so_far
  | Loaded (Some so_far) => patchy bs so_far
  | _ => True
  end.

Lemma skipn_head : forall (bs : list byte) o b rest, skipn o bs = b :: rest -> nth_error bs o = Some b /\ rest = skipn (S o) bs.
Proof.
  induction bs as [|c bs IH]; intros [|o] b rest E; try discriminate.
  - cbn in *. injection E as -> ->. auto.
  - cbn [skipn nth_error] in *. now apply IH.
Qed.

Lemma party : forall bs s events s', happens s events s' ->
  (forall f, fst s = Some f -> patchy bs f) -> Forall (party_ok bs) (snd s) ->
  (forall f, fst s' = Some f -> patchy bs f) /\ Forall (party_ok bs) (snd s').
Proof.
  intros bs s events s' H. induction H as [s|s events f before p after e f' p' H IH A]; intros F0 P0; auto.
  destruct (IH F0 P0) as (F & P). clear IH. cbn [fst snd] in *. apply Forall_app in P. destruct P as (Pb & P). inversion P as [|? ? Pp Pa]; subst.
  assert (K : forall f2 p2, (forall g, f2 = Some g -> patchy bs g) -> party_ok bs p2 ->
    (forall g, f2 = Some g -> patchy bs g) /\ Forall (party_ok bs) (before ++ p2 :: after)).
  { intros f2 p2 Ff Fp. split; auto. apply Forall_app. auto. }
  inversion A; subst; apply K; auto; try exact I.
  - intros g E. injection E as <-. split; cbn; [lia|]. intros [|i]; discriminate.
  - cbn in *. subst. cbn. split; [reflexivity|lia].
  - intros g E. injection E as <-. destruct (F _ eq_refl) as (Lf & N). destruct Pp as (Er & Lo). destruct (skipn_head _ _ _ _ (eq_sym Er)) as (Nb & _).
    assert (o < length bs) by (apply nth_error_Some; congruence). split; [rewrite put_byte_length; lia|].
    intros i c. rewrite put_byte_nth. destruct (Nat.eqb_spec i o) as [->|]; [intros E; injection E as <-; auto|].
    destruct (Nat.ltb i (length f0)); auto. destruct (Nat.ltb i o); [|discriminate]. intros E. injection E as <-. auto.
  - destruct Pp as (Er & Lo). destruct (skipn_head _ _ _ _ (eq_sym Er)) as (Nb & Es). cbn. split; auto.
    assert (o < length bs) by (apply nth_error_Some; congruence). lia.
  - cbn. split; auto. split; cbn; [lia|]. intros [|i]; discriminate.
  - destruct Pp as (-> & Lp & Np). destruct (F _ eq_refl) as (Lf & N).
    match goal with E : nth_error f0 _ = Some b |- _ => rename E into Eb end.
    assert (length so_far < length f0) by (apply nth_error_Some; congruence).
    cbn. rewrite app_length. cbn [length]. split; [lia|]. split; [rewrite app_length; cbn [length]; lia|].
    intros i c E. destruct (Nat.lt_ge_cases i (length so_far)) as [L|L].
    + rewrite nth_error_app1 in E by auto. auto.
    + rewrite nth_error_app2 in E by auto. destruct (i - length so_far) as [|[|?]] eqn:X; try discriminate. injection E as <-.
      replace i with (length so_far) by lia. auto.
  - destruct Pp as (_ & Pp). exact Pp.
Qed.

(** Any number save the same bytes, any number load, at any time: whatever is loaded
    is not longer, and each byte of it is the right one or zero. *)
Theorem C116_loading_many : forall bs file ps events file' ps' got,
  file = None \/ file = Some bs -> (forall p, In p ps -> p = Save bs \/ p = Load) ->
  happens (file, ps) events (file', ps') -> In (Loaded (Some got)) ps' ->
  length got <= length bs /\ forall i b, nth_error got i = Some b -> nth_error bs i = Some b \/ b = 0%N.
Proof.
  intros bs file ps events file' ps' got F0 P H I.
  destruct (party bs _ _ _ H) as (_ & Q).
  - cbn. intros f E. destruct F0 as [->| ->]; [discriminate|]. injection E as <-. split; auto.
  - apply Forall_forall. cbn [snd]. intros p J. destruct (P p J) as [->| ->]; cbn; auto.
  - cbn [snd] in Q. rewrite Forall_forall in Q. exact (Q _ I).
Qed.
Print Assumptions C116_loading_many.

(** ** Loading while somebody replaces the dictionary *)

(** The first [k] bytes of the old file, then bytes of the new one, each at its
    place. *)
Definition patched (old new got : list byte) : Prop :=
  exists k, k <= length got /\ k <= length old /\ got = firstn k old ++ firstn (length got - k) (skipn k new).

Lemma patched_old : forall old new got, prefix_of old got -> patched old new got.
Proof.
  intros old new got (back & ->). exists (length got). rewrite app_length, Nat.sub_diag, firstn_app, firstn_all, Nat.sub_diag. cbn.
  rewrite !app_nil_r. repeat split; lia.
Qed.

Lemma firstn_next : forall (l : list byte) n b, nth_error l n = Some b -> firstn (S n) l = firstn n l ++ [b].
Proof.
  induction l as [|c l IH]; intros [|n] b E; try discriminate.
  - cbn in E. injection E as ->. destruct l; reflexivity.
  - cbn in E. change (c :: firstn (S n) l = c :: firstn n l ++ [b]). now rewrite (IH n b E).
Qed.

Lemma nth_skipn : forall (l : list byte) k n, nth_error (skipn k l) n = nth_error l (k + n).
Proof. induction l as [|c l IH]; intros [|k] n; cbn; auto. now destruct n. Qed.

Lemma patched_next : forall old new f got b, prefix_of new f -> patched old new got -> nth_error f (length got) = Some b -> patched old new (got ++ [b]).
Proof.
  intros old new f got b (x & ->) (k & Lk & Lo & E) N. exists k. rewrite app_length. cbn [length]. split; [lia|]. split; [lia|].
  replace (length got + 1 - k) with (S (length got - k)) by lia. rewrite (firstn_next _ _ b).
  - rewrite app_assoc. now rewrite <- E.
  - rewrite nth_skipn. replace (k + (length got - k)) with (length got) by lia. rewrite nth_error_app1; [auto|]. apply nth_error_Some. congruence.
Qed.

Definition replacer_ok (new : list byte) (f : option (list byte)) (p : process) : Prop :=
  match p with
  | Writing o rest => exists f0, f = Some f0 /\ o = length f0 /\ new = f0 ++ rest
  | Saved | Killed => True
  | _ => False
  end.
Definition onlooker_ok (ok : list byte -> Prop) (p : process) : Prop :=
  match p with
  | Load | Killed => True
  | Reading o so_far => o = length so_far /\ ok so_far
  | Loaded (Some so_far) => ok so_far
  | _ => False
  end.
Definition replacing_ok (old new : list byte) (k : nat) (s : option (list byte) * list process) : Prop :=
  (fst s = Some old /\ forall j p, nth_error (snd s) j = Some p -> if Nat.eqb j k then p = Save new else onlooker_ok (prefix_of old) p) \/
  (exists f, fst s = Some f /\ prefix_of new f /\
    forall j p, nth_error (snd s) j = Some p -> if Nat.eqb j k then replacer_ok new (fst s) p else onlooker_ok (patched old new) p).

Lemma onlooker_later : forall (ok ok' : list byte -> Prop) p, (forall got, ok got -> ok' got) -> onlooker_ok ok p -> onlooker_ok ok' p.
Proof. intros ok ok' [bs|o rest| | |o got|[got|]|] H; cbn; auto. intros (A & B). auto. Qed.

Lemma one_replacer : forall old new k s events s', happens s events s' -> replacing_ok old new k s -> replacing_ok old new k s'.
Proof.
  intros old new k s events s' H. induction H as [s|s events f before p after e f' p' H IH A]; intros Ok; auto.
  specialize (IH Ok). clear Ok. destruct IH as [(Ef & P)|(f0 & Ef & Pf & P)]; cbn [fst snd] in Ef, P; subst f;
    pose proof (P _ _ (nth_this _ before p after)) as Pp.
  - assert (K : forall p2, (if Nat.eqb (length before) k then p2 = Save new else onlooker_ok (prefix_of old) p2) ->
      replacing_ok old new k (Some old, before ++ p2 :: after)).
    { intros p2 Fp. left. cbn [fst snd]. split; auto. intros j q E. destruct (Nat.eq_dec j (length before)) as [->|N].
      - rewrite nth_this in E. now injection E as <-.
      - rewrite (nth_other _ _ p2 p) in E by auto. exact (P _ _ E). }
    revert Pp K. destruct (Nat.eqb_spec (length before) k) as [Ek|Ek]; intros Pp K.
    + subst p. inversion A; subst. right. exists []. cbn [fst snd]. split; auto. split; [now exists new|].
      intros j q E. destruct (Nat.eq_dec j (length before)) as [->|N].
      * rewrite nth_this in E. injection E as <-. rewrite Nat.eqb_refl. exists []. auto.
      * rewrite (nth_other _ _ _ (Save new)) in E by auto. specialize (P _ _ E). rewrite (proj2 (Nat.eqb_neq _ _) N) in *.
        eapply onlooker_later; [|exact P]. apply patched_old.
    + inversion A; subst; try (cbn in Pp; contradiction); apply K; cbn; auto.
      * split; auto. now exists old.
      * destruct Pp as (-> & Pr). rewrite app_length, Nat.add_1_r. split; auto. eapply prefix_next; [|exact Pr|eassumption]. exists []. now rewrite app_nil_r.
      * now destruct Pp.
  - assert (K : forall f2 p2, prefix_of new f2 -> (if Nat.eqb (length before) k then replacer_ok new (Some f2) p2 else onlooker_ok (patched old new) p2) ->
      (length before = k \/ f2 = f0) -> replacing_ok old new k (Some f2, before ++ p2 :: after)).
    { intros f2 p2 F2 Fp Ch. right. exists f2. cbn [fst snd]. split; auto. split; auto. intros j q E. destruct (Nat.eq_dec j (length before)) as [->|N].
      - rewrite nth_this in E. now injection E as <-.
      - rewrite (nth_other _ _ p2 p) in E by auto. specialize (P _ _ E). destruct (Nat.eqb_spec j k) as [->|]; auto.
        destruct Ch as [Ch| ->]; [congruence|auto]. }
    revert Pp K. destruct (Nat.eqb_spec (length before) k) as [Ek|Ek]; intros Pp K;
      inversion A; subst f' p' p e; try (cbn in Pp; contradiction).
    + destruct Pp as (f1 & Ef & Eo & Eb). injection Ef as <-. subst f.
      assert (Ea : new = put_byte f0 o b ++ rest).
      { unfold put_byte. rewrite (proj2 (Nat.ltb_ge o (length f0))) by lia. rewrite Eo, Nat.sub_diag. cbn. rewrite <- app_assoc. exact Eb. }
      apply K; auto; [exists rest; exact Ea|]. exists (put_byte f0 o b). rewrite put_byte_length. split; auto. split; [lia|exact Ea].
    + apply K; cbn; auto.
    + apply K; cbn; auto.
    + subst. apply K; cbn; auto. split; auto. apply patched_old. now exists old.
    + destruct Pp as (Eo & Pr). subst. apply K; auto. cbn. rewrite app_length, Nat.add_1_r. split; auto. eapply patched_next; eauto.
    + destruct Pp as (Eo & Pr). subst. apply K; cbn; auto.
    + apply K; cbn; auto.
Qed.

(** One thread or process replaces the bytes in the file by others, any number of
    others load, at any time: whatever they get is the beginning of the old file
    followed by bytes of the new one, each of them at its place. *)
Theorem C116_replacing : forall old new before after events file' ps' got,
  (forall p, In p (before ++ after) -> p = Load) ->
  happens (Some old, before ++ Save new :: after) events (file', ps') -> In (Loaded (Some got)) ps' ->
  exists k, k <= length got /\ k <= length old /\ got = firstn k old ++ firstn (length got - k) (skipn k new).
Proof.
  intros old new before after events file' ps' got P H I. change (patched old new got).
  apply In_nth_error in I. destruct I as (j & E).
  destruct (one_replacer old new (length before) _ _ _ H) as [(_ & Q)|(f & _ & _ & Q)].
  - left. split; auto. cbn [fst snd]. intros i p Ei. destruct (Nat.eqb_spec i (length before)) as [->|N].
    + rewrite nth_this in Ei. now injection Ei as <-.
    + assert (In p (before ++ after)) as J.
      { destruct (Nat.lt_ge_cases i (length before)) as [L|L].
        - rewrite nth_error_app1 in Ei by auto. apply in_or_app. left. eapply nth_error_In; eauto.
        - rewrite nth_error_app2 in Ei by auto. destruct (i - length before) eqn:X; [lia|]. apply in_or_app. right. cbn in Ei. eapply nth_error_In; eauto. }
      rewrite (P _ J). exact Logic.I.
  - specialize (Q _ _ E). destruct (Nat.eqb j (length before)); [discriminate|]. now apply patched_old.
  - specialize (Q _ _ E). destruct (Nat.eqb j (length before)); [destruct Q|]. exact Q.
Qed.
Print Assumptions C116_replacing.

(** ** Savers that write different bytes *)

Fixpoint put_bytes (f : list byte) (o : nat) (bs : list byte) : list byte :=
  match bs with [] => f | b :: rest => put_bytes (put_byte f o b) (S o) rest end.

Lemma happens_trans : forall s2 e2 s3, happens s2 e2 s3 -> forall s1 e1, happens s1 e1 s2 -> happens s1 (e1 ++ e2) s3.
Proof.
  intros s2 e2 s3 H. induction H as [s|s events f before p after e f' p' H IH A]; intros s1 e1 H1; [now rewrite app_nil_r|].
  rewrite app_assoc. econstructor; eauto.
Qed.

Lemma writes : forall now later f o before after,
  exists events, happens (Some f, before ++ Writing o (now ++ later) :: after) events
    (Some (put_bytes f o now), before ++ Writing (o + length now) later :: after) /\ forall e, In e events -> snd e = Writes.
Proof.
  induction now as [|b now IH]; intros later f o before after.
  - exists []. cbn. rewrite Nat.add_0_r. split; [constructor|intros e []].
  - destruct (IH later (put_byte f o b) (S o) before after) as (events & H & W). exists ([(length before, Writes)] ++ events). split.
    + cbn [app length put_bytes]. replace (o + S (length now)) with (S o + length now) by lia.
      change ((length before, Writes) :: events) with ([(length before, Writes)] ++ events).
      eapply happens_trans; [exact H|]. apply (happens_next _ [] (Some f) before (Writing o (b :: now ++ later)) after Writes); constructor.
    + intros e I. apply in_app_or in I. destruct I as [[<-|[]]|I]; auto.
Qed.

(** Two savers: the second opens the file after the first and writes [k] bytes, the
    first writes all of its bytes, the second writes the rest. *)
Lemma two_savers : forall x y1 y2,
  exists events, happens (None, [Save x; Save (y1 ++ y2)]) events
    (Some (put_bytes (put_bytes (put_bytes [] 0 y1) 0 x) (length y1) y2), [Saved; Saved]).
Proof.
  intros x y1 y2.
  assert (H0 : happens (None, [Save x; Save (y1 ++ y2)]) ([(0, Opens)] ++ [(1, Opens)]) (Some [], [Writing 0 x; Writing 0 (y1 ++ y2)])).
  { apply (happens_next _ [(0, Opens)] (Some []) [Writing 0 x] (Save (y1 ++ y2)) [] Opens); [|constructor].
    apply (happens_next _ [] None [] (Save x) [Save (y1 ++ y2)] Opens); constructor. }
  destruct (writes y1 y2 [] 0 [Writing 0 x] []) as (e1 & H1 & _).
  destruct (writes x [] (put_bytes [] 0 y1) 0 [] [Writing (0 + length y1) y2]) as (e2 & H2 & _). rewrite app_nil_r in H2.
  destruct (writes y2 [] (put_bytes (put_bytes [] 0 y1) 0 x) (0 + length y1) [Writing (0 + length x) []] []) as (e3 & H3 & _). rewrite app_nil_r in H3.
  cbn [app] in *. pose proof (happens_trans _ _ _ H3 _ _ (happens_trans _ _ _ H2 _ _ (happens_trans _ _ _ H1 _ _ H0))) as H.
  eexists. eapply (happens_next _ _ _ [Saved] _ [] Closes); [|constructor].
  eapply (happens_next _ _ _ [] _ [_] Closes); [|constructor]. exact H.
Qed.

Ltac build := exists 40; apply PropsDemo.from_there; intros fuel; vm_compute; reflexivity.

Definition first_words : list str := [lit "ab"].
Definition other_words : list str := [lit "cd"].
Definition bytes_ab : list byte :=
  [10; 3; 1; 2; 3; 18; 1; 3; 26; 6; 8; 1; 16; 97; 24; 2; 26; 6; 8; 2; 16; 98; 24; 3; 32; 1; 40; 1]%N.
Definition bytes_cd : list byte :=
  [10; 3; 1; 2; 3; 18; 1; 3; 26; 6; 8; 1; 16; 99; 24; 2; 26; 6; 8; 2; 16; 100; 24; 3; 32; 1; 40; 1]%N.

Lemma built_ab : exists h b m, runs_to (fun fuel => sorted_dawg fuel bump [] first_words) (h, Some b) /\
  runs_to (fun fuel => to_protobuf fuel h (b_dawg b)) m /\ encode m = bytes_ab.
Proof. do 3 eexists. split; [build|]. split; [build|]. vm_compute. reflexivity. Qed.
Lemma built_cd : exists h b m, runs_to (fun fuel => sorted_dawg fuel bump [] other_words) (h, Some b) /\
  runs_to (fun fuel => to_protobuf fuel h (b_dawg b)) m /\ encode m = bytes_cd.
Proof. do 3 eexists. split; [build|]. split; [build|]. vm_compute. reflexivity. Qed.

(** "The file holds the one dictionary or the other" is false: two processes save
    their dictionaries to the same path, both calls succeed and nobody else is
    there, and the file is read without complaint as a dictionary with a term that
    neither has. *)
Theorem C116_mixture_refuted : exists h1 d1 m1 h2 d2 m2 events mixture h3 b,
  dictionary first_words h1 d1 /\ runs_to (fun fuel => to_protobuf fuel h1 d1) m1 /\
  dictionary other_words h2 d2 /\ runs_to (fun fuel => to_protobuf fuel h2 d2) m2 /\
  happens (None, [Save (encode m1); Save (encode m2)]) events (Some mixture, [Saved; Saved]) /\
  deserialize_file bump [] (Some mixture) = Ok (h3, Some b) /\
  runs_to (fun fuel => iterate fuel h3 (b_dawg b)) [lit "ad"] /\
  contains h3 (b_dawg b) (lit "ab") = Ok false /\ contains h3 (b_dawg b) (lit "cd") = Ok false.
Proof.
  destruct built_ab as (h1 & b1 & m1 & R1 & P1 & E1). destruct built_cd as (h2 & b2 & m2 & R2 & P2 & E2).
  destruct (two_savers bytes_ab (firstn 16 bytes_cd) (skipn 16 bytes_cd)) as (events & H).
  eexists h1, (b_dawg b1), m1, h2, (b_dawg b2), m2, events, _, _, _. rewrite E1, E2.
  split; [exact (dictionary_sorted _ _ _ _ _ PropsDawg.bump_allocator R1)|]. split; [exact P1|].
  split; [exact (dictionary_sorted _ _ _ _ _ PropsDawg.bump_allocator R2)|]. split; [exact P2|].
  split; [exact H|]. split; [vm_compute; reflexivity|]. split; [build|]. split; vm_compute; reflexivity.
Qed.
Print Assumptions C116_mixture_refuted.

Definition bytes_again : list byte :=
  [10; 3; 4; 5; 6; 18; 1; 6; 26; 6; 8; 4; 16; 97; 24; 5; 26; 6; 8; 5; 16; 98; 24; 6; 32; 4; 40; 1]%N.

Definition once_heap : heap := match sorted_dawg 40 bump [] first_words with Ok (h, _) => h | _ => [] end.
Definition twice_heap : heap := match sorted_dawg 40 bump once_heap first_words with Ok (h, _) => h | _ => [] end.

Lemma built_twice : dictionary first_words twice_heap (Dawg 1%N 1%N) /\ dictionary first_words twice_heap (Dawg 4%N 1%N).
Proof.
  assert (R1 : exists b, runs_to (fun fuel => sorted_dawg fuel bump [] first_words) (once_heap, Some b) /\ b_dawg b = Dawg 1%N 1%N)
    by (eexists; split; [build|reflexivity]).
  assert (R2 : exists b, runs_to (fun fuel => sorted_dawg fuel bump once_heap first_words) (twice_heap, Some b) /\ b_dawg b = Dawg 4%N 1%N)
    by (eexists; split; [build|reflexivity]).
  split.
  - destruct R1 as (b & R & <-). apply dictionary_untouched with once_heap; [exact (dictionary_sorted _ _ _ _ _ PropsDawg.bump_allocator R)|].
    assert (E : d_root (b_dawg b) = 1%N).
    { destruct R as (n & R). specialize (R (n + 40) ltac:(lia)). rewrite Nat.add_comm in R. vm_compute in R. injection R as <-. reflexivity. }
    rewrite E. intros p Re. assert (I : In p [1; 2; 3]%N) by (revert Re; apply PropsStream.reach_within; [reflexivity|cbn; auto]).
    repeat (destruct I as [<-|I]; [reflexivity|]). destruct I.
  - destruct R2 as (b & R & <-). exact (dictionary_sorted _ _ _ _ _ PropsDawg.bump_allocator R).
Qed.

(** Nor does it help that the dictionaries have the same terms: two threads save two
    dictionaries built one after the other from the same terms, both calls succeed,
    and whoever loads the file runs into undefined behaviour. *)
Theorem C116_same_terms_refuted : exists h d1 m1 d2 m2 events mixture,
  dictionary first_words h d1 /\ runs_to (fun fuel => to_protobuf fuel h d1) m1 /\
  dictionary first_words h d2 /\ runs_to (fun fuel => to_protobuf fuel h d2) m2 /\
  happens (None, [Save (encode m1); Save (encode m2)]) events (Some mixture, [Saved; Saved]) /\
  deserialize_file bump [] (Some mixture) = UB.
Proof.
  destruct built_twice as (D1 & D2).
  destruct (two_savers bytes_ab (firstn 8 bytes_again) (skipn 8 bytes_again)) as (events & H).
  exists twice_heap, (Dawg 1%N 1%N). eexists. exists (Dawg 4%N 1%N). eexists. exists events. eexists.
  split; [exact D1|]. split; [build|]. split; [exact D2|]. split; [build|]. split; [exact H|]. vm_compute. reflexivity.
Qed.
Print Assumptions C116_same_terms_refuted.

Lemma reads : forall now so_far later f before after, skipn (length so_far) f = now ++ later -> exists events,
  happens (Some f, before ++ Reading (length so_far) so_far :: after) events
    (Some f, before ++ Reading (length (so_far ++ now)) (so_far ++ now) :: after).
Proof.
  induction now as [|b now IH]; intros so_far later f before after E.
  - exists []. rewrite app_nil_r. constructor.
  - assert (N : nth_error f (length so_far) = Some b) by (rewrite <- (Nat.add_0_r (length so_far)), <- nth_skipn, E; reflexivity).
    assert (E' : skipn (length (so_far ++ [b])) f = now ++ later).
    { rewrite app_length, Nat.add_comm. cbn [length]. change (1 + length so_far) with (S (length so_far)).
      revert E. clear. revert so_far. induction f as [|c f IH]; intros [|x so_far] E; try discriminate.
      - cbn in *. now injection E as _ E.
      - cbn [length skipn] in *. apply (IH so_far E). }
    destruct (IH (so_far ++ [b]) later f before after E') as (events & H). rewrite <- !app_assoc in H. cbn [app] in H.
    exists ([(length before, Reads)] ++ events). eapply happens_trans; [exact H|]. rewrite app_length, Nat.add_1_r.
    apply (happens_next _ [] (Some f) before (Reading (length so_far) so_far) after Reads); [constructor|].
    constructor. exact N.
Qed.

(** Even with a single saver of the same dictionary, whoever loads meanwhile may get
    nothing of it, or the beginning, although the file held all of it before and
    holds all of it afterwards. *)
Example C116_loading_case : exists events,
  happens (Some bytes_ab, [Load; Save bytes_ab; Load]) events (Some bytes_ab, [Loaded (Some (firstn 9 bytes_ab)); Saved; Loaded (Some [])]) /\
  cut_short (firstn 9 bytes_ab) bytes_ab /\ cut_short [] bytes_ab.
Proof.
  destruct (reads (firstn 9 bytes_ab) [] (skipn 9 bytes_ab) bytes_ab [] [Save bytes_ab; Load] eq_refl) as (e1 & H1).
  destruct (writes bytes_ab [] [] 0 [Loaded (Some (firstn 9 bytes_ab))] [Loaded (Some [])]) as (e2 & H2 & _).
  rewrite !app_nil_l in H1. rewrite app_nil_r in H2.
  pose proof (happens_next _ [] (Some bytes_ab) [] Load [Save bytes_ab; Load] Reads _ _ (happens_nothing _) (act_open _)) as H0.
  pose proof (happens_trans _ _ _ H1 _ _ H0) as H. cbn [app] in H, H2.
  eapply (happens_next _ _ _ [_] (Save bytes_ab) [_] Opens) in H; [|constructor].
  eapply (happens_next _ _ _ [] _ [_; _] Reads) in H; [|apply act_end; cbn; lia].
  eapply (happens_next _ _ _ [_; _] Load [] Reads) in H; [|apply act_open].
  eapply (happens_next _ _ _ [_; _] _ [] Reads) in H; [|apply act_end; cbn; lia].
  pose proof (happens_trans _ _ _ H2 _ _ H) as H3.
  eapply (happens_next _ _ _ [_] _ [_] Closes) in H3; [|constructor].
  eexists. split; [exact H3|]. split; [exists (skipn 9 bytes_ab)|exists bytes_ab]; split; (discriminate || reflexivity).
Qed.

(** Two savers of the same dictionary: while both write, the file may be shorter or
    hold zeros; as soon as the one that opened it last has closed it, it is right,
    although the other one is still writing. *)
Example C116_same_case : exists events,
  happens (None, [Save bytes_ab; Save bytes_ab]) (events ++ [(1, Closes)]) (Some bytes_ab, [Writing 20 (skipn 20 bytes_ab); Saved]) /\
  (exists before after, events ++ [(1, Closes)] = before ++ (1, Opens) :: after /\ (forall j, ~ In (j, Opens) after) /\ In (1, Closes) after) /\
  (exists some, happens (None, [Save bytes_ab; Save bytes_ab]) some (Some [0; 3]%N, [Writing 2 (skipn 2 bytes_ab); Writing 0 bytes_ab])).
Proof.
  assert (H0 : happens (None, [Save bytes_ab; Save bytes_ab]) [(0, Opens)] (Some [], [Writing 0 bytes_ab; Save bytes_ab])).
  { apply (happens_next _ [] None [] (Save bytes_ab) [Save bytes_ab] Opens); constructor. }
  destruct (writes (firstn 20 bytes_ab) (skipn 20 bytes_ab) [] 0 [] [Save bytes_ab]) as (e1 & H1 & W1). rewrite firstn_skipn in H1.
  destruct (writes bytes_ab [] [] 0 [Writing 20 (skipn 20 bytes_ab)] []) as (e2 & H2 & W2). rewrite app_nil_r in H2.
  cbn [app] in H1, H2. pose proof (happens_trans _ _ _ H1 _ _ H0) as H.
  eapply (happens_next _ _ _ [_] (Save bytes_ab) [] Opens) in H; [|constructor].
  pose proof (happens_trans _ _ _ H2 _ _ H) as H3.
  eapply (happens_next _ _ _ [_] _ [] Closes) in H3; [|constructor].
  eexists. split; [exact H3|]. split.
  - exists ([(0, Opens)] ++ e1), (e2 ++ [(1, Closes)]). split; [now rewrite <- !app_assoc|]. split.
    + intros j I. apply in_app_or in I. destruct I as [I|[I|[]]]; [apply W2 in I; discriminate|discriminate].
    + apply in_or_app. right. left. reflexivity.
  - eapply (happens_next _ _ _ [] _ [_] Writes) in H0; [|exact (act_write [] 0 10%N (tl bytes_ab))].
    eapply (happens_next _ _ _ [_] (Save bytes_ab) [] Opens) in H0; [|constructor].
    eapply (happens_next _ _ _ [] _ [_] Writes) in H0; [|exact (act_write [] 1 3%N (tl (tl bytes_ab)))].
    eexists. exact H0.
Qed.

(** "Whoever loads while the dictionary is replaced gets the old one or the new one,
    or nothing" is false: what is loaded has a term that is in neither. *)
Theorem C116_replacing_refuted : exists h1 d1 m1 h2 d2 m2 events got h3 b,
  dictionary first_words h1 d1 /\ runs_to (fun fuel => to_protobuf fuel h1 d1) m1 /\
  dictionary other_words h2 d2 /\ runs_to (fun fuel => to_protobuf fuel h2 d2) m2 /\
  happens (Some (encode m1), [Load; Save (encode m2)]) events (Some (encode m2), [Loaded (Some got); Saved]) /\
  deserialize_file bump [] (Some got) = Ok (h3, Some b) /\
  runs_to (fun fuel => iterate fuel h3 (b_dawg b)) [lit "ad"].
Proof.
  destruct built_ab as (h1 & b1 & m1 & R1 & P1 & E1). destruct built_cd as (h2 & b2 & m2 & R2 & P2 & E2).
  destruct (reads (firstn 16 bytes_ab) [] (skipn 16 bytes_ab) bytes_ab [] [Save bytes_cd] eq_refl) as (e1 & H1).
  rewrite !app_nil_l in H1.
  pose proof (happens_next _ [] (Some bytes_ab) [] Load [Save bytes_cd] Reads _ _ (happens_nothing _) (act_open _)) as H0.
  pose proof (happens_trans _ _ _ H1 _ _ H0) as H. cbn [app] in H.
  eapply (happens_next _ _ _ [_] (Save bytes_cd) [] Opens) in H; [|constructor].
  destruct (writes bytes_cd [] [] 0 [Reading 16 (firstn 16 bytes_ab)] []) as (e2 & H2 & _). rewrite app_nil_r in H2.
  pose proof (happens_trans _ _ _ H2 _ _ H) as H3.
  eapply (happens_next _ _ _ [_] _ [] Closes) in H3; [|constructor].
  destruct (reads (skipn 16 bytes_cd) (firstn 16 bytes_ab) [] bytes_cd [] [Saved] eq_refl) as (e3 & H4).
  pose proof (happens_trans _ _ _ H4 _ _ H3) as H5.
  eapply (happens_next _ _ _ [] _ [_] Reads) in H5; [|apply act_end; cbn; lia].
  eexists h1, (b_dawg b1), m1, h2, (b_dawg b2), m2, _, _, _, _. rewrite E1, E2.
  split; [exact (dictionary_sorted _ _ _ _ _ PropsDawg.bump_allocator R1)|]. split; [exact P1|].
  split; [exact (dictionary_sorted _ _ _ _ _ PropsDawg.bump_allocator R2)|]. split; [exact P2|].
  split; [exact H5|]. split; [vm_compute; reflexivity|]. build.
Qed.
Print Assumptions C116_replacing_refuted.

(** The zeros do come: two threads save the same dictionary, and whoever loads it
    meanwhile gets a dictionary with a term that is not in it. *)
Theorem C116_loading_many_refuted : exists h d m events file ps got h3 b,
  dictionary first_words h d /\ runs_to (fun fuel => to_protobuf fuel h d) m /\
  happens (None, [Save (encode m); Save (encode m); Load]) events (file, ps) /\ In (Loaded (Some got)) ps /\
  deserialize_file bump [] (Some got) = Ok (h3, Some b) /\
  runs_to (fun fuel => iterate fuel h3 (b_dawg b)) [["a"%char; "000"%char]].
Proof.
  destruct built_ab as (h1 & b1 & m1 & R1 & P1 & E1).
  assert (H0 : happens (None, [Save bytes_ab; Save bytes_ab; Load]) [(0, Opens)] (Some [], [Writing 0 bytes_ab; Save bytes_ab; Load])).
  { apply (happens_next _ [] None [] (Save bytes_ab) [Save bytes_ab; Load] Opens); constructor. }
  destruct (writes (firstn 22 bytes_ab) (skipn 22 bytes_ab) [] 0 [] [Save bytes_ab; Load]) as (e1 & H1 & _). rewrite firstn_skipn in H1.
  pose proof (happens_trans _ _ _ H1 _ _ H0) as H. cbn [app] in H.
  eapply (happens_next _ _ _ [_] (Save bytes_ab) [_] Opens) in H; [|constructor].
  destruct (writes (firstn 21 bytes_ab) (skipn 21 bytes_ab) [] 0 [Writing 22 (skipn 22 bytes_ab)] [Load]) as (e2 & H2 & _). rewrite firstn_skipn in H2.
  pose proof (happens_trans _ _ _ H2 _ _ H) as H3. cbn [app] in H3.
  destruct (writes (skipn 22 bytes_ab) [] (put_bytes [] 0 (firstn 21 bytes_ab)) 22 [] [Writing 21 (skipn 21 bytes_ab); Load]) as (e4 & H4 & _).
  rewrite app_nil_r in H4. pose proof (happens_trans _ _ _ H4 _ _ H3) as H5. cbn [app] in H5.
  set (got := put_bytes (put_bytes [] 0 (firstn 21 bytes_ab)) 22 (skipn 22 bytes_ab)) in H5.
  eapply (happens_next _ _ _ [_; _] Load [] Reads) in H5; [|apply act_open].
  destruct (reads got [] [] got [Writing 28 []; Writing 21 (skipn 21 bytes_ab)] [] ltac:(symmetry; apply app_nil_r)) as (e6 & H6).
  pose proof (happens_trans _ _ _ H6 _ _ H5) as H7. rewrite app_nil_l in H7.
  eapply (happens_next _ _ _ [_; _] _ [] Reads) in H7; [|apply act_end; lia].
  eexists h1, (b_dawg b1), m1, _, _, _, got, _, _. rewrite E1.
  split; [exact (dictionary_sorted _ _ _ _ _ PropsDawg.bump_allocator R1)|]. split; [exact P1|].
  split; [exact H7|]. split; [cbn [In app]; auto|]. split; [vm_compute; reflexivity|]. build.
Qed.
Print Assumptions C116_loading_many_refuted.
