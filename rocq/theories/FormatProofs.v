(** * FormatProofs: the model of protobuf's parser accepts exactly the format. *)
From Verif Require Import Base ModelDawg ModelSerial SpecSerial ModelWire SpecWire SpecDawg SpecFormat TreeProofs HeapProofs SerialProofs WireProofs.
Require Import ZifyBool ZifyNat ZifyN.
Local Open Scope nat_scope.
Set Implicit Arguments. Unset Strict Implicit.

Lemma bytes_app a b : are_bytes (a ++ b) <-> are_bytes a /\ are_bytes b.
Proof. apply Forall_app. Qed.
Lemma bytes_firstn n a : are_bytes a -> are_bytes (firstn n a).
Proof. rewrite <- (firstn_skipn n a) at 1. rewrite bytes_app. tauto. Qed.
Lemma bytes_skipn n a : are_bytes a -> are_bytes (skipn n a).
Proof. rewrite <- (firstn_skipn n a) at 1. rewrite bytes_app. tauto. Qed.

Lemma top_bit b : (128 <= b < 256)%N -> (b mod 128 = b - 128)%N.
Proof. intros H. symmetry. apply N.mod_unique with 1%N; lia. Qed.

Lemma get_varint_iff w : forall bs n rest, are_bytes bs ->
  get_varint w bs = Some (n, rest) <-> exists v, bs = v ++ rest /\ base128 v n /\ length v <= w.
Proof.
  induction w as [|w IH]; intros bs n rest B.
  { cbn. split; [discriminate|]. intros (v & -> & H & L). destruct H; cbn in L; lia. }
  destruct bs as [|b bs]; cbn [get_varint].
  { split; [discriminate|]. intros (v & E & H & _). destruct H; discriminate. }
  inversion B as [|? ? Hb Bs]; subst. destruct (N.ltb_spec b 128) as [L|L].
  - split.
    + intros E. injection E as <- <-. exists [b]. split; auto. split; [constructor; auto|cbn; lia].
    + intros (v & E & H & _). destruct H as [b' Hb'|b' v n Hb' H]; cbn in E; injection E as <- E; [subst; auto|lia].
  - split.
    + destruct (get_varint w bs) as [[n' r]|] eqn:E; [|discriminate]. intros X. injection X as <- <-.
      apply IH in E; auto. destruct E as (v & -> & H & Lv). exists (b :: v). split; auto.
      rewrite top_bit by lia. split; [constructor; auto|cbn; lia].
    + intros (v & E & H & Lv). destruct H as [b' Hb'|b' v n Hb' H]; cbn in E; injection E as <- E; [lia|].
      assert (X : get_varint w bs = Some (n, rest)) by (apply IH; auto; exists v; cbn in Lv; split; auto; split; auto; lia).
      rewrite X, top_bit by lia. auto.
Qed.

Lemma get_uint64_iff bs n rest : are_bytes bs -> get_uint64 bs = Some (n, rest) <-> exists v, bs = v ++ rest /\ number 64 v n.
Proof.
  intros B. unfold get_uint64. split.
  - destruct (get_varint 10 bs) as [[v r]|] eqn:E; [|discriminate]. intros X. injection X as <- <-.
    apply get_varint_iff in E; auto. destruct E as (u & -> & H & L). exists u. split; auto. exists v. auto.
  - intros (u & -> & v & H & L & ->).
    assert (E : get_varint 10 (u ++ rest) = Some (v, rest)) by (apply get_varint_iff; eauto). rewrite E. auto.
Qed.
Lemma get_uint32_iff bs n rest : are_bytes bs -> get_uint32 bs = Some (n, rest) <-> exists v, bs = v ++ rest /\ number 32 v n.
Proof.
  intros B. unfold get_uint32. split.
  - destruct (get_varint 10 bs) as [[v r]|] eqn:E; [|discriminate]. intros X. injection X as <- <-.
    apply get_varint_iff in E; auto. destruct E as (u & -> & H & L). exists u. split; auto. exists v. auto.
  - intros (u & -> & v & H & L & ->).
    assert (E : get_varint 10 (u ++ rest) = Some (v, rest)) by (apply get_varint_iff; eauto). rewrite E. auto.
Qed.

Lemma get_tag_iff bs k t rest : are_bytes bs ->
  (exists n, get_tag bs = Some (n, rest) /\ (n / 8 = k)%N /\ (n mod 8 = t)%N /\ k <> 0%N) <-> exists v, bs = v ++ rest /\ key k t v.
Proof.
  intros B. unfold get_tag. split.
  - destruct (get_varint 5 bs) as [[v r]|] eqn:E; [|intros (n & X & _); discriminate].
    intros (n & X & Hk & Ht & Nk). injection X as <- <-.
    apply get_varint_iff in E; auto. destruct E as (u & -> & H & L). exists u. split; auto. exists v. split; auto. split; auto.
    split; [|split; [subst t; apply N.mod_lt; lia|auto]]. subst k t. apply N.div_mod'.
  - intros (u & -> & v & H & L & E & Lt & Nk).
    assert (X : get_varint 5 (u ++ rest) = Some (v, rest)) by (apply get_varint_iff; eauto). rewrite X.
    exists (v mod 2 ^ 32)%N. split; auto. rewrite E. split; [symmetry; apply N.div_unique with t; lia|].
    split; [symmetry; apply N.mod_unique with k; lia|auto].
Qed.

Lemma get_delimited_iff bs body rest : are_bytes bs ->
  get_delimited bs = Some (body, rest) <-> exists v, bs = v ++ rest /\ delimited v body.
Proof.
  intros B. unfold get_delimited. split.
  - destruct (get_varint 5 bs) as [[v r]|] eqn:E; [|discriminate].
    destruct (N.leb_spec v (N.of_nat (length r))) as [L|L]; [|discriminate]. intros X. injection X as <- <-.
    apply get_varint_iff in E; auto. destruct E as (u & -> & H & Lu). exists (u ++ firstn (N.to_nat v) r).
    split; [rewrite <- app_assoc, firstn_skipn; auto|]. exists u. split; [|auto].
    rewrite firstn_length_le by lia. rewrite N2Nat.id. auto.
  - intros (v & -> & len & H & L & ->). rewrite <- app_assoc in B |- *.
    assert (X : get_varint 5 (len ++ body ++ rest) = Some (N.of_nat (length body), body ++ rest)) by (apply get_varint_iff; eauto).
    rewrite X. rewrite app_length. destruct (N.leb_spec (N.of_nat (length body)) (N.of_nat (length body + length rest))); [|lia].
    rewrite Nat2N.id, firstn_app, skipn_app, firstn_all, skipn_all, Nat.sub_diag. cbn [firstn skipn app].
    rewrite app_nil_r. auto.
Qed.

Lemma skip_scalar_iff t bs rest : are_bytes bs ->
  skip_scalar t bs = Some rest <-> t <> 3%N /\ exists v, bs = v ++ rest /\ forall depth k, any_value depth k t v.
Proof.
  intros B. split.
  - intros E.
    assert (Tt : (t = 0 \/ t = 1 \/ t = 2 \/ t = 5)%N).
    { destruct t as [|p]; auto. do 3 (try destruct p as [p|p|]); cbn in E; try discriminate; auto. }
    split; [intros ->; discriminate|].
    destruct Tt as [->|[->|[->| ->]]]; cbn [skip_scalar] in E.
    + destruct (get_uint64 bs) as [[n r]|] eqn:X; [|discriminate]. injection E as <-. apply get_uint64_iff in X; auto.
      destruct X as (v & -> & H). exists v. split; auto. intros. econstructor; eauto.
    + destruct (N.leb_spec 8 (N.of_nat (length bs))); [|discriminate]. injection E as <-. exists (firstn 8 bs).
      split; [symmetry; apply firstn_skipn|]. intros. constructor. rewrite firstn_length. lia.
    + destruct (get_delimited bs) as [[n r]|] eqn:X; [|discriminate]. injection E as <-. apply get_delimited_iff in X; auto.
      destruct X as (v & -> & H). exists v. split; auto. intros. econstructor; eauto.
    + destruct (N.leb_spec 4 (N.of_nat (length bs))); [|discriminate]. injection E as <-. exists (firstn 4 bs).
      split; [symmetry; apply firstn_skipn|]. intros. constructor. rewrite firstn_length. lia.
  - intros (Nt & v & -> & H). specialize (H 0 0%N). inversion H as [d k u n X|d k u X|d k u body X|d k body e X Y|d k u X]; subst; cbn [skip_scalar].
    + assert (E : get_uint64 (v ++ rest) = Some (n, rest)) by (apply get_uint64_iff; eauto). rewrite E. auto.
    + rewrite app_length. destruct (N.leb_spec 8 (N.of_nat (length v + length rest))); [|lia]. f_equal.
      rewrite <- X. rewrite skipn_app, skipn_all, Nat.sub_diag. auto.
    + assert (E : get_delimited (v ++ rest) = Some (body, rest)) by (apply get_delimited_iff; eauto). rewrite E. auto.
    + rewrite app_length. destruct (N.leb_spec 4 (N.of_nat (length v + length rest))); [|lia]. f_equal.
      rewrite <- X. rewrite skipn_app, skipn_all, Nat.sub_diag. auto.
Qed.

Lemma any_scalar depth k t v : any_value depth k t v -> t <> 3%N -> forall depth' k', any_value depth' k' t v.
Proof. intros H N3 depth' k'. destruct H; try congruence; econstructor; eauto. Qed.

Lemma key_cons k t v : key k t v -> v <> [].
Proof. intros (n & H & _). destruct H; discriminate. Qed.

(** What is left of the groups that are open. *)
Inductive closes : nat -> list N -> list N -> Prop :=
| closes_nil : forall depth, closes depth [] []
| closes_cons : forall depth g outer body e v, any_fields depth body -> key g 4 e -> closes (S depth) outer v ->
    closes depth (g :: outer) (body ++ e ++ v).

Lemma skip_groups_sound fuel : forall depth open bs rest, are_bytes bs ->
  skip_groups fuel depth open bs = Ok (Some rest) -> exists v, bs = v ++ rest /\ closes depth open v.
Proof.
  induction fuel as [|fuel IH]; intros depth open bs rest B; cbn [skip_groups];
    (destruct open as [|g open]; [intros E; injection E as <-; exists []; split; [auto|constructor]|]); [discriminate|].
  destruct (get_tag bs) as [[t r]|] eqn:E; [|discriminate]. destruct (N.eqb_spec (t / 8) 0) as [|Nz]; [discriminate|].
  assert (Hk : exists v, bs = v ++ r /\ key (t / 8) (t mod 8) v) by (apply get_tag_iff; eauto).
  destruct Hk as (kb & -> & Hk). apply bytes_app in B. destruct B as (Bk & Br).
  destruct (N.eqb_spec (t mod 8) 4) as [E4|N4]; [|destruct (N.eqb_spec (t mod 8) 3) as [E3|N3]].
  - destruct (N.eqb_spec (t / 8) g) as [<-|]; [|discriminate]. intros X. apply IH in X; auto. destruct X as (v & -> & H).
    exists (kb ++ v). split; [apply app_assoc|]. rewrite E4 in Hk. apply (@closes_cons depth (t / 8)%N open [] kb v); auto. constructor.
  - destruct depth as [|depth]; [discriminate|]. intros X. apply IH in X; auto. destruct X as (v & -> & H).
    exists (kb ++ v). split; [apply app_assoc|]. rewrite E3 in Hk. inversion H as [|d g' o body e v' Hb He Hv]; subst.
    inversion Hv as [|d g' o body' e' v'' Hb' He' Hv']; subst.
    replace (kb ++ body ++ e ++ body' ++ e' ++ v'') with ((kb ++ (body ++ e) ++ body') ++ e' ++ v'') by (rewrite <- !app_assoc; auto).
    constructor; auto. econstructor; eauto. constructor; auto.
  - destruct (skip_scalar (t mod 8) r) as [r'|] eqn:E'; [|discriminate]. apply skip_scalar_iff in E'; auto.
    destruct E' as (_ & u & -> & Hu). apply bytes_app in Br. intros X. apply IH in X; [|tauto]. destruct X as (v & -> & H).
    exists (kb ++ u ++ v). split; [rewrite <- !app_assoc; auto|]. inversion H as [|d g' o body e v' Hb He Hv]; subst.
    replace (kb ++ u ++ body ++ e ++ v') with ((kb ++ u ++ body) ++ e ++ v') by (rewrite <- !app_assoc; auto).
    constructor; auto. econstructor; eauto.
Qed.

Scheme any_value_mut := Minimality for any_value Sort Prop
with any_fields_mut := Minimality for any_fields Sort Prop.
Combined Scheme any_mut from any_value_mut, any_fields_mut.

Lemma tag_there k t kb rest : are_bytes (kb ++ rest) -> key k t kb ->
  length rest < length (kb ++ rest) /\
  exists n, get_tag (kb ++ rest) = Some (n, rest) /\ (n / 8 = k)%N /\ (n mod 8 = t)%N /\ k <> 0%N.
Proof.
  intros B H. split; [apply key_cons in H; rewrite app_length; destruct kb; [congruence|cbn; lia]|]. apply get_tag_iff; eauto.
Qed.

Lemma skip_group_end fuel depth g open e rest : are_bytes (e ++ rest) -> key g 4 e -> length (e ++ rest) < S fuel ->
  skip_groups (S fuel) depth (g :: open) (e ++ rest) = skip_groups fuel (S depth) open rest /\ length rest < fuel.
Proof.
  intros B H L. destruct (tag_there B H) as (Lr & n & E & Ek & Et & Nz). split; [|lia].
  cbn [skip_groups]. rewrite E, Ek, Et. destruct (N.eqb_spec g 0); [congruence|]. rewrite !N.eqb_refl. auto.
Qed.

Lemma skip_group_fields :
  (forall depth k t v, any_value depth k t v -> t <> 3%N \/ exists d, depth = S d /\
    forall fuel open rest, are_bytes (v ++ rest) -> length (v ++ rest) < fuel ->
      exists fuel', length rest < fuel' /\ skip_groups fuel d (k :: open) (v ++ rest) = skip_groups fuel' depth open rest) /\
  (forall depth v, any_fields depth v ->
    forall fuel g open rest, are_bytes (v ++ rest) -> length (v ++ rest) < fuel ->
      exists fuel', length rest < fuel' /\ skip_groups fuel depth (g :: open) (v ++ rest) = skip_groups fuel' depth (g :: open) rest).
Proof.
  apply any_mut; try (left; discriminate).
  - intros depth k body e Hb IH He. right. exists depth. split; auto. intros fuel open rest B L. rewrite <- app_assoc in B, L |- *.
    destruct (IH fuel k open (e ++ rest) B L) as (fuel' & L' & ->). apply bytes_app in B.
    destruct fuel' as [|fuel']; [lia|]. destruct (skip_group_end depth open (proj2 B) He L') as (-> & L2). eauto.
  - intros depth fuel g open rest _ L. eauto.
  - intros depth k t kb v r Hk Hv IHv Hr IHr fuel g open rest B L. rewrite <- !app_assoc in B, L |- *.
    destruct (tag_there B Hk) as (Lr & n & E & Ek & Et & Nz). destruct fuel as [|fuel]; [lia|].
    apply bytes_app in B. destruct B as (_ & B). pose proof (proj1 (bytes_app _ _) B) as (_ & Br).
    assert (Lv : length (v ++ r ++ rest) < fuel) by lia.
    cbn [skip_groups]. rewrite E, Ek, Et. destruct (N.eqb_spec k 0) as [|_]; [congruence|].
    destruct IHv as [N3|(d & -> & IHv)].
    + assert (N4 : t <> 4%N) by (destruct Hv; discriminate). destruct (N.eqb_spec t 4); [congruence|]. destruct (N.eqb_spec t 3); [congruence|].
      assert (E' : skip_scalar t (v ++ r ++ rest) = Some (r ++ rest)).
      { apply skip_scalar_iff; auto. split; auto. exists v. split; auto. apply (any_scalar Hv N3). }
      rewrite E'. apply IHr; auto. rewrite app_length in Lv. lia.
    + assert (t = 3%N \/ t <> 3%N) as [->|N3] by (destruct (N.eq_dec t 3); auto).
      * cbn. destruct (IHv fuel (g :: open) (r ++ rest) B Lv) as (fuel' & L' & ->). apply IHr; auto.
      * assert (N4 : t <> 4%N) by (destruct Hv; discriminate). destruct (N.eqb_spec t 4); [congruence|]. destruct (N.eqb_spec t 3); [congruence|].
        assert (E' : skip_scalar t (v ++ r ++ rest) = Some (r ++ rest)).
        { apply skip_scalar_iff; auto. split; auto. exists v. split; auto. apply (any_scalar Hv N3). }
        rewrite E'. apply IHr; auto. rewrite app_length in Lv. lia.
Qed.

Lemma skip_value_iff depth k t bs rest : are_bytes bs ->
  skip_value depth k t bs = Ok (Some rest) <-> exists v, bs = v ++ rest /\ any_value depth k t v.
Proof.
  intros B. unfold skip_value. destruct (N.eqb_spec t 3) as [->|N3].
  - destruct depth as [|depth]; [split; [discriminate|intros (v & _ & H); inversion H]|]. split.
    + intros E. apply skip_groups_sound in E; auto. destruct E as (v & -> & H). exists v. split; auto.
      inversion H as [|d g o body e u Hb He Hu]; subst. inversion Hu; subst. rewrite app_nil_r. constructor; auto.
    + intros (v & -> & H). destruct (proj1 skip_group_fields _ _ _ _ H) as [|(d & E & X)]; [congruence|]. injection E as <-.
      destruct (X (S (length (v ++ rest))) [] rest B ltac:(lia)) as (fuel' & L & ->). destruct fuel'; [lia|]. reflexivity.
  - split.
    + intros E. injection E as E. apply skip_scalar_iff in E; auto. destruct E as (_ & v & -> & H). eauto.
    + intros (v & -> & H). f_equal. apply skip_scalar_iff; auto. split; auto. exists v. split; auto. apply (any_scalar H N3).
Qed.

Lemma number_cons bits bs n : number bits bs n -> bs <> [].
Proof. intros (v & H & _). destruct H; discriminate. Qed.

Lemma get_packed_iff fuel : forall bs ns, are_bytes bs -> length bs < fuel ->
  get_packed fuel bs = Ok (Some ns) <-> numbers 64 bs ns.
Proof.
  induction fuel as [|fuel IH]; intros bs ns B L; [lia|]. cbn [get_packed]. destruct bs as [|b bs].
  { split; [intros E; injection E as <-; constructor|]. intros H. inversion H as [|u n u' ns' Hn H' E]; auto.
    apply app_eq_nil in E. destruct E as [-> _]. apply number_cons in Hn. congruence. }
  remember (b :: bs) as c eqn:Ec. split.
  - destruct (get_uint64 c) as [[n r]|] eqn:E; [|discriminate]. pose proof (get_uint64_shorter _ _ _ E) as Sh.
    apply get_uint64_iff in E; auto. destruct E as (v & -> & H).
    destruct (get_packed fuel r) as [[ns'|]| |] eqn:E'; cbn [rbind]; intros X; inversion X; subst ns.
    apply bytes_app in B. constructor; auto. apply IH in E'; auto; [tauto|lia].
  - intros H. destruct H as [|v n u ns Hn H]; [discriminate|].
    assert (E : get_uint64 (v ++ u) = Some (n, u)) by (apply get_uint64_iff; eauto). rewrite E.
    pose proof (get_uint64_shorter _ _ _ E) as Sh. apply bytes_app in B.
    assert (E' : get_packed fuel u = Ok (Some ns)) by (apply IH; auto; [tauto|lia]). rewrite E'. auto.
Qed.

(** ** Fields *)
Section Fields.
  Context {A : Type} (step : A -> N -> N -> list N -> res (option (A * list N))) (value : N -> N -> list N -> A -> A -> Prop).
  Hypothesis step_iff : forall x k t bs y rest, are_bytes bs ->
    step x k t bs = Ok (Some (y, rest)) <-> exists v, bs = v ++ rest /\ value k t v x y.

  Lemma fields_iff fuel : forall bs x y, are_bytes bs -> length bs < fuel ->
    fields step fuel x bs = Ok (Some y) <-> fields_of value bs x y.
  Proof.
    induction fuel as [|fuel IH]; intros bs x y B L; [lia|]. cbn [fields]. destruct bs as [|b bs].
    { split; [intros E; injection E as <-; constructor|]. intros H. inversion H as [|k t kb v r x' y' z' Hk Hv H' E]; auto.
      apply app_eq_nil in E. destruct E as [-> _]. apply key_cons in Hk. congruence. }
    remember (b :: bs) as c eqn:Ec. split.
    - destruct (get_tag c) as [[t r]|] eqn:E; [|discriminate]. destruct (N.eqb_spec (t / 8) 0) as [|Nz]; [discriminate|].
      assert (Hk : exists v, c = v ++ r /\ key (t / 8) (t mod 8) v) by (apply get_tag_iff; eauto).
      destruct Hk as (kb & -> & Hk). apply bytes_app in B.
      destruct (step x (t / 8) (t mod 8) r) as [[[x' r']|]| |] eqn:E'; cbn [rbind]; try discriminate.
      apply step_iff in E'; [|tauto]. destruct E' as (v & -> & Hv). intros H. apply IH in H.
      + econstructor; eauto.
      + destruct B as [_ B]. apply bytes_app in B. tauto.
      + apply key_cons in Hk. rewrite !app_length in L. destruct kb; [congruence|cbn in L; lia].
    - intros H. destruct H as [|k t kb v r x y z Hk Hv H]; [discriminate|].
      assert (Hg : exists n, get_tag (kb ++ v ++ r) = Some (n, v ++ r) /\ (n / 8 = k)%N /\ (n mod 8 = t)%N /\ k <> 0%N)
        by (apply get_tag_iff; eauto).
      destruct Hg as (n & -> & -> & -> & Nk). destruct (N.eqb_spec k 0) as [|_]; [congruence|]. apply bytes_app in B.
      assert (E' : step x k t (v ++ r) = Ok (Some (y, r))) by (apply step_iff; eauto; tauto). rewrite E'. cbn [rbind].
      apply IH; auto.
      + destruct B as [_ B]. apply bytes_app in B. tauto.
      + apply key_cons in Hk. rewrite !app_length in L. destruct kb; [congruence|cbn in L; lia].
  Qed.


  Lemma fields_app a b x y z : fields_of value a x y -> fields_of value b y z -> fields_of value (a ++ b) x z.
  Proof.
    intros H. induction H as [|k t kb v r x y y' Hk Hv H IH]; intros Hb; auto.
    rewrite <- !app_assoc. econstructor; eauto.
  Qed.
End Fields.

Lemma skip_iff {A} depth (x y : A) k t bs rest : are_bytes bs ->
  skip depth x k t bs = Ok (Some (y, rest)) <-> exists v, bs = v ++ rest /\ any_value depth k t v /\ x = y.
Proof.
  intros B. unfold skip. split.
  - destruct (skip_value depth k t bs) as [[r|]| |] eqn:E; cbn [rbind]; intros X; inversion X; subst. apply skip_value_iff in E; auto.
    destruct E as (v & -> & H). eauto.
  - intros (v & -> & H & ->). assert (E : skip_value depth k t (v ++ rest) = Ok (Some rest)) by (apply skip_value_iff; eauto). rewrite E. auto.
Qed.

Lemma uint64_step {A} (f : N -> A) bs y rest : are_bytes bs ->
  Ok (match get_uint64 bs with Some (n, r) => Some (f n, r) | None => None end) = Ok (Some (y, rest)) <->
  exists v, bs = v ++ rest /\ exists n, number 64 v n /\ y = f n.
Proof.
  intros B. split.
  - destruct (get_uint64 bs) as [[n r]|] eqn:E; intros X; inversion X; subst. apply get_uint64_iff in E; auto.
    destruct E as (v & -> & H). eauto.
  - intros (v & -> & n & H & ->). assert (E : get_uint64 (v ++ rest) = Some (n, rest)) by (apply get_uint64_iff; eauto). rewrite E. auto.
Qed.
Lemma uint32_step {A} (f : N -> A) bs y rest : are_bytes bs ->
  Ok (match get_uint32 bs with Some (n, r) => Some (f n, r) | None => None end) = Ok (Some (y, rest)) <->
  exists v, bs = v ++ rest /\ exists n, number 32 v n /\ y = f n.
Proof.
  intros B. split.
  - destruct (get_uint32 bs) as [[n r]|] eqn:E; intros X; inversion X; subst. apply get_uint32_iff in E; auto.
    destruct E as (v & -> & H). eauto.
  - intros (v & -> & n & H & ->). assert (E : get_uint32 (v ++ rest) = Some (n, rest)) by (apply get_uint32_iff; eauto). rewrite E. auto.
Qed.

Lemma pair_dec (x y : N * N) : {x = y} + {x <> y}.
Proof. decide equality; apply N.eq_dec. Qed.

Lemma edge_field_other e k t bs : ~ In (k, t) [(1, 0); (2, 0); (3, 0)]%N -> edge_field e k t bs = skip (pred depth_limit) e k t bs.
Proof.
  intros H. unfold edge_field. destruct k as [|k]; auto. do 2 (try destruct k as [k|k|]); auto; destruct t; auto; destruct H; cbn; auto.
Qed.
Lemma edge_field_iff e k t bs e' rest : are_bytes bs ->
  edge_field e k t bs = Ok (Some (e', rest)) <-> exists v, bs = v ++ rest /\ edge_value k t v e e'.
Proof.
  intros B. destruct (in_dec pair_dec (k, t) [(1, 0); (2, 0); (3, 0)]%N) as [I|I].
  - destruct I as [E|[E|[E|[]]]]; injection E as <- <-; cbn [edge_field].
    + rewrite uint64_step by auto. split; intros (v & -> & H); exists v; (split; [auto|]).
      * destruct H as (n & H & ->). constructor. auto.
      * inversion H; subst; eauto. exfalso. cbn in *. tauto.
    + rewrite uint32_step by auto. split; intros (v & -> & H); exists v; (split; [auto|]).
      * destruct H as (n & H & ->). constructor. auto.
      * inversion H; subst; eauto. exfalso. cbn in *. tauto.
    + rewrite uint64_step by auto. split; intros (v & -> & H); exists v; (split; [auto|]).
      * destruct H as (n & H & ->). constructor. auto.
      * inversion H; subst; eauto. exfalso. cbn in *. tauto.
  - rewrite edge_field_other, skip_iff by auto. split; intros (v & -> & H); exists v; (split; [auto|]).
    + destruct H as [H <-]. apply edge_other; auto.
    + inversion H; subst; auto; exfalso; apply I; cbn; auto.
Qed.

Lemma decode_edge_iff bs e : are_bytes bs -> decode_edge bs = Ok (Some e) <-> fields_of edge_value bs (EdgeMsg 0 0 0) e.
Proof. intros B. unfold decode_edge. apply fields_iff; auto. intros. apply edge_field_iff. auto. Qed.

Lemma packed_field_iff bs ns rest : are_bytes bs ->
  packed_field bs = Ok (Some (ns, rest)) <-> exists v, bs = v ++ rest /\ exists body, delimited v body /\ numbers 64 body ns.
Proof.
  intros B. unfold packed_field. split.
  - destruct (get_delimited bs) as [[body r]|] eqn:E; [|discriminate].
    destruct (get_packed (S (length body)) body) as [[ns'|]| |] eqn:E'; cbn [rbind]; intros X; inversion X; subst.
    apply get_delimited_iff in E; auto. destruct E as (v & -> & D). exists v. split; auto. exists body. split; auto.
    apply get_packed_iff in E'; auto. destruct D as (len & _ & _ & ->). apply bytes_app in B. destruct B as [B _].
    apply bytes_app in B. tauto.
  - intros (v & -> & body & D & H).
    assert (E : get_delimited (v ++ rest) = Some (body, rest)) by (apply get_delimited_iff; eauto). rewrite E.
    assert (E' : get_packed (S (length body)) body = Ok (Some ns)).
    { apply get_packed_iff; auto. destruct D as (len & _ & _ & ->). apply bytes_app in B. destruct B as [B _].
      apply bytes_app in B. tauto. }
    rewrite E'. auto.
Qed.
Lemma packed_step {A} (f : list N -> A) bs y rest : are_bytes bs ->
  (do r <- packed_field bs; Ok (match r with Some (ns, r) => Some (f ns, r) | None => None end)) = Ok (Some (y, rest)) <->
  exists v, bs = v ++ rest /\ exists body ns, delimited v body /\ numbers 64 body ns /\ y = f ns.
Proof.
  intros B. split.
  - destruct (packed_field bs) as [[[ns r]|]| |] eqn:E; cbn [rbind]; intros X; inversion X; subst. apply packed_field_iff in E; auto.
    destruct E as (v & -> & body & D & H). exists v. split; auto. eauto.
  - intros (v & -> & body & ns & D & H & ->).
    assert (E : packed_field (v ++ rest) = Ok (Some (ns, rest))) by (apply packed_field_iff; eauto). rewrite E. auto.
Qed.
Lemma edge_step {A} (f : edge_msg -> A) bs y rest : are_bytes bs ->
  match get_delimited bs with
  | None => Ok None
  | Some (body, r) => do e <- decode_edge body; Ok (match e with Some e => Some (f e, r) | None => None end)
  end = Ok (Some (y, rest)) <->
  exists v, bs = v ++ rest /\ exists body e, delimited v body /\ fields_of edge_value body (EdgeMsg 0 0 0) e /\ y = f e.
Proof.
  intros B. split.
  - destruct (get_delimited bs) as [[body r]|] eqn:E; [|discriminate].
    destruct (decode_edge body) as [[e|]| |] eqn:E'; cbn [rbind]; intros X; inversion X; subst.
    apply get_delimited_iff in E; auto. destruct E as (v & -> & D). exists v. split; auto. exists body, e. split; auto. split; auto.
    apply decode_edge_iff; auto. destruct D as (len & _ & _ & ->). apply bytes_app in B. destruct B as [B _].
    apply bytes_app in B. tauto.
  - intros (v & -> & body & e & D & H & ->).
    assert (E : get_delimited (v ++ rest) = Some (body, rest)) by (apply get_delimited_iff; eauto). rewrite E.
    assert (E' : decode_edge body = Ok (Some e)).
    { apply decode_edge_iff; auto. destruct D as (len & _ & _ & ->). apply bytes_app in B. destruct B as [B _].
      apply bytes_app in B. tauto. }
    rewrite E'. auto.
Qed.

Lemma message_field_other m k t bs : ~ In (k, t) [(1, 2); (1, 0); (2, 2); (2, 0); (3, 2); (4, 0); (5, 0)]%N ->
  message_field m k t bs = skip depth_limit m k t bs.
Proof.
  intros H. unfold message_field. destruct k as [|k]; auto.
  do 3 (try destruct k as [k|k|]); auto; (destruct t as [|t]; [auto|do 2 (try destruct t as [t|t|])]); auto; destruct H; cbn; tauto.
Qed.
Lemma message_field_iff m k t bs m' rest : are_bytes bs ->
  message_field m k t bs = Ok (Some (m', rest)) <-> exists v, bs = v ++ rest /\ dictionary_value k t v m m'.
Proof.
  intros B. destruct (in_dec pair_dec (k, t)
    [(1, 2); (1, 0); (2, 2); (2, 0); (3, 2); (4, 0); (5, 0)]%N) as [I|I].
  - destruct I as [E|[E|[E|[E|[E|[E|[E|[]]]]]]]]; injection E as <- <-; cbn [message_field];
      first [rewrite packed_step by auto|rewrite uint64_step by auto|rewrite edge_step by auto];
      (split; intros (v & -> & H); exists v; (split; [auto|]);
        [destruct H as (? & H); repeat match goal with H : exists _, _ |- _ => destruct H | H : _ /\ _ |- _ => destruct H end; subst m'; econstructor; eauto
        |inversion H; subst; eauto; exfalso; cbn in *; tauto]).
  - rewrite message_field_other, skip_iff by auto. split; intros (v & -> & H); exists v; (split; [auto|]).
    + destruct H as [H <-]. apply field_other; auto.
    + inversion H; subst; auto; exfalso; apply I; cbn; tauto.
Qed.

Lemma decode_iff bs m : are_bytes bs -> (N.of_nat (length bs) <= INT_MAX)%N ->
  decode bs = Ok (Some m) <-> encodes bs m.
Proof.
  intros B L. unfold decode, encodes. destruct (N.leb_spec (N.of_nat (length bs)) INT_MAX); [|lia].
  apply fields_iff; auto. intros. apply message_field_iff. auto.
Qed.

Lemma unknown_neutral bs m : unknown_fields bs -> fields_of dictionary_value bs m m.
Proof.
  unfold unknown_fields. intros H. remember tt as u in H at 1. remember tt as u' in H. clear Hequ Hequ'.
  induction H as [|k t kb v r x y y' Hk (Hv & Hn) H IH]; [constructor|]. econstructor; eauto. apply field_other; auto.
Qed.

(** ** What is written consists of bytes *)
Lemma varint_bytes n : (n < 2 ^ 64)%N -> are_bytes (varint n).
Proof.
  intros _. unfold varint. generalize 10. intros w. revert n. induction w as [|w IH]; intros n; cbn [put_varint]; [constructor|].
  destruct (N.ltb_spec n 128); constructor; try constructor; try apply IH; [lia|].
  pose proof (N.mod_lt n 128). lia.
Qed.
Lemma tag_bytes k t : (k < 31)%N -> (t < 8)%N -> are_bytes [tag k t].
Proof. intros. constructor; [|constructor]. unfold tag. lia. Qed.
Lemma put_varint_bytes w : forall n, are_bytes (put_varint w n).
Proof.
  induction w as [|w IH]; intros n; cbn [put_varint]; [constructor|].
  destruct (N.ltb_spec n 128); constructor; try constructor; try apply IH; [lia|].
  pose proof (N.mod_lt n 128). lia.
Qed.
Lemma flat_bytes {A} (f : A -> list N) l : (forall x, are_bytes (f x)) -> are_bytes (flat_map f l).
Proof. intros H. induction l; cbn; [constructor|]. apply bytes_app. auto. Qed.
Lemma put_uint_bytes k n : (k < 31)%N -> are_bytes (put_uint k n).
Proof.
  intros H. unfold put_uint. destruct (n =? 0)%N; [constructor|].
  change (are_bytes ([tag k 0] ++ varint n)). apply bytes_app. split; [apply tag_bytes; lia|apply put_varint_bytes].
Qed.
Lemma put_delimited_bytes k body : (k < 31)%N -> are_bytes body -> are_bytes (put_delimited k body).
Proof.
  intros H B. unfold put_delimited. change (are_bytes ([tag k 2] ++ varint (N.of_nat (length body)) ++ body)).
  rewrite !bytes_app. split; [apply tag_bytes; lia|]. split; [apply put_varint_bytes|auto].
Qed.
Lemma put_packed_bytes k ns : (k < 31)%N -> are_bytes (put_packed k ns).
Proof.
  intros H. unfold put_packed. destruct ns; [constructor|]. apply put_delimited_bytes; auto.
  apply flat_bytes. intros. apply put_varint_bytes.
Qed.
Lemma encode_bytes m : are_bytes (encode m).
Proof.
  unfold encode. rewrite !bytes_app. split; [apply put_packed_bytes; lia|]. split; [apply put_packed_bytes; lia|].
  split; [|split; apply put_uint_bytes; lia]. apply flat_bytes. intros e. apply put_delimited_bytes; [lia|].
  unfold put_edge. rewrite !bytes_app. repeat split; apply put_uint_bytes; lia.
Qed.

Lemma encode_encodes m : in_range m -> not_too_long m -> encodes (encode m) m.
Proof. intros R L. apply decode_iff; auto. - apply encode_bytes. - apply decode_encode; auto. Qed.

(** ** Fields in between that are not known *)
Lemma fields_agree fuel fuel' m bs : are_bytes bs -> length bs < fuel -> length bs < fuel' ->
  fields message_field fuel m bs = fields message_field fuel' m bs.
Proof.
  intros B L L'. pose proof (fun x y => @fields_iff _ message_field dictionary_value (fun x k t bs y r => @message_field_iff x k t bs y r) fuel bs x y B L) as F.
  pose proof (fun x y => @fields_iff _ message_field dictionary_value (fun x k t bs y r => @message_field_iff x k t bs y r) fuel' bs x y B L') as F'.
  destruct (@fields_total message message_field message_field_total fuel m bs L) as (r & E).
  destruct (@fields_total message message_field message_field_total fuel' m bs L') as (r' & E').
  destruct r as [y|].
  - rewrite E. symmetry. apply F', F. auto.
  - destruct r' as [y'|]; [|congruence]. assert (X : fields message_field fuel m bs = Ok (Some y')) by (apply F, F'; auto). congruence.
Qed.

Lemma fields_front a : forall x y, fields_of dictionary_value a x y -> forall b fuel, are_bytes (a ++ b) -> length (a ++ b) < fuel ->
  fields message_field fuel x (a ++ b) = fields message_field fuel y b.
Proof.
  intros x y H. induction H as [|k t kb v r x y y' Hk Hv H IH]; intros b fuel B L; auto.
  rewrite <- !app_assoc in *. destruct fuel as [|fuel]; [lia|]. pose proof (key_cons Hk) as Nk.
  assert (Hg : exists n, get_tag (kb ++ v ++ r ++ b) = Some (n, v ++ r ++ b) /\ (n / 8 = k)%N /\ (n mod 8 = t)%N /\ k <> 0%N)
    by (apply get_tag_iff; eauto).
  destruct Hg as (n & G & Ek & Et & Nz).
  assert (E : fields message_field (S fuel) x (kb ++ v ++ r ++ b) = fields message_field fuel y (r ++ b)).
  { cbn [fields]. destruct (kb ++ v ++ r ++ b) eqn:Ec; [destruct kb; [congruence|discriminate]|]. rewrite G, Ek, Et.
    destruct (N.eqb_spec k 0); [congruence|]. rewrite <- Ec in B. apply bytes_app in B.
    assert (E' : message_field x k t (v ++ r ++ b) = Ok (Some (y, r ++ b))) by (apply message_field_iff; eauto; tauto).
    rewrite E'. auto. }
  rewrite E. apply bytes_app in B. destruct B as [_ B]. apply bytes_app in B. destruct B as [_ B].
  assert (Lr : length (r ++ b) < fuel) by (repeat rewrite app_length in L; repeat rewrite app_length; destruct kb; [congruence|cbn [length] in L; lia]).
  rewrite (IH b fuel B Lr). apply bytes_app in B. apply fields_agree; [tauto|rewrite !app_length in *; lia..].
Qed.

(** ** Looking up terms in what has been read *)
Lemma leads_inv es i c w j : leads es i (c :: w) j ->
  exists e, In e es /\ em_source e = i /\ label_of_msg (em_label e) = c /\ leads es (em_target e) w j.
Proof. intros H. inversion H; subst. eauto. Qed.
Lemma edge_unique es e e' : NoDup (map (fun e => (em_source e, label_of_msg (em_label e))) es) -> In e es -> In e' es ->
  em_source e = em_source e' -> label_of_msg (em_label e) = label_of_msg (em_label e') -> e = e'.
Proof.
  induction es as [|x es IH]; intros ND I I' Es El; [contradiction|]. cbn in ND. inversion ND as [|? ? Nx ND']; subst.
  destruct I as [->|I], I' as [->|I']; auto; exfalso; apply Nx; apply in_map_iff; eexists; (split; [|eassumption]); congruence.
Qed.
Lemma laid_out_contains h0 h m f d : well_formed m -> laid_out h0 h (m_nodes m) (m_finals m) f (m_edges m) ->
  d_root d = f (m_root m) -> forall w, (N.of_nat (length w) <= INT_MAX)%N ->
  exists found, contains h d w = Ok found /\
    (found = true <-> exists j, leads (m_edges m) (m_root m) w j /\ In j (m_finals m)).
Proof.
  intros Wf L Er w Lw.
  assert (P : forall w i k, In i (m_nodes m) -> (k + N.of_nat (length w) <= 2147483647)%N ->
    exists p, contains_loop h (f i) k w = Ok p /\
      (p = null /\ (forall j, ~ leads (m_edges m) i w j) \/
       exists j, In j (m_nodes m) /\ p = f j /\ forall j', leads (m_edges m) i w j' <-> j' = j)).
  { clear w Lw. induction w as [|c w IH]; intros i k I B; cbn [contains_loop].
    - exists (f i). split; auto. right. exists i. split; auto. split; auto. intros j'. split.
      + intros H. inversion H. auto.
      + intros ->. constructor.
    - destruct (lo_node _ _ _ _ _ _ L i I) as (n & G & Fn & So & Ed). destruct (lo_fresh _ _ _ _ _ _ L i I) as (Nn & _).
      destruct (N.eqb_spec (f i) null); [congruence|]. rewrite (read_ok _ _ _ Nn G). cbn [rbind]. cbn [length] in B.
      destruct (N.eqb_spec k 2147483647); [lia|]. unfold transition. destruct (edge_get (nedges n) c) as [q|] eqn:Eg.
      + apply Ed in Eg. destruct Eg as (e & Ie & Es & El & <-).
        destruct (IH (em_target e) (k + 1)%N (wf_target _ Wf _ Ie) ltac:(lia)) as (p & E & D). exists p. split; auto.
        assert (Uq : forall j, leads (m_edges m) i (c :: w) j <-> leads (m_edges m) (em_target e) w j).
        { intros j. split.
          - intros H. apply leads_inv in H. destruct H as (e' & Ie' & Es' & El' & H).
            rewrite (edge_unique (wf_keys _ Wf) Ie Ie'); congruence.
          - intros H. rewrite <- Es, <- El. constructor; auto. }
        destruct D as [(-> & D)|(j & Ij & -> & D)].
        * left. split; auto. intros j. rewrite Uq. auto.
        * right. exists j. split; auto. split; auto. intros j'. rewrite Uq. auto.
      + assert (D : forall j, ~ leads (m_edges m) i (c :: w) j).
        { intros j H. apply leads_inv in H. destruct H as (e & Ie & Es & El & H).
          assert (Ex : edge_get (nedges n) c = Some (f (em_target e))) by (apply Ed; eauto). congruence. }
        destruct w as [|c' w]; cbn [contains_loop]; [|rewrite N.eqb_refl]; exists null; auto. }
  unfold contains. rewrite Er.
  destruct (P w (m_root m) 0%N (wf_root _ Wf)) as (p & -> & D); [unfold INT_MAX in Lw; lia|]. cbn [rbind].
  destruct D as [(-> & D)|(j & Ij & -> & D)].
  - rewrite N.eqb_refl. exists false. split; auto. split; [discriminate|]. intros (j & H & _). destruct (D j H).
  - destruct (lo_node _ _ _ _ _ _ L j Ij) as (n & G & Fn & _). destruct (lo_fresh _ _ _ _ _ _ L j Ij) as (Nn & _).
    destruct (N.eqb_spec (f j) null); [congruence|]. rewrite (read_ok _ _ _ Nn G). cbn [rbind]. exists (nfin n). split; auto.
    rewrite Fn. rewrite set_mem_In. split; [intros I; exists j; split; auto; apply D; auto|].
    intros (j' & H & I). apply D in H. subst. auto.
Qed.
