(** * WireProofs: reading back what was written, whole or cut short. *)
From Verif Require Import Base ModelDawg ModelSerial SpecSerial ModelWire SpecWire SpecDawg SerialProofs.
Require Import ZifyBool ZifyNat ZifyN.
Local Open Scope nat_scope.

Lemma app_prefix {A} (a b x y : list A) : a ++ b = x ++ y -> y <> [] ->
  (exists z, x = a ++ z /\ b = z ++ y) \/ (exists z, z <> [] /\ a = x ++ z).
Proof.
  revert x. induction a as [|c a IH]; intros x E Ny; cbn in *.
  - left. exists x. auto.
  - destruct x as [|c' x]; cbn in *.
    + right. exists (c :: a). split; [discriminate|auto].
    + injection E as -> E. destruct (IH x E Ny) as [(z & -> & ->)|(z & Nz & ->)]; [left|right]; exists z; auto.
Qed.

(** ** Numbers *)
Lemma put_varint_cons w n : put_varint w n = [] <-> w = 0.
Proof. destruct w; cbn; [tauto|]. destruct (n <? 128)%N; split; discriminate. Qed.

Lemma get_put w : forall w' n rest, 0 < w' <= w -> (n < 128 ^ N.of_nat w')%N ->
  get_varint w' (put_varint w n ++ rest) = Some (n, rest).
Proof.
  induction w as [|w IH]; intros [|w'] n rest L B; try lia.
  cbn [put_varint get_varint]. destruct (N.ltb_spec n 128) as [Lt|Ge]; cbn [app].
  - destruct (N.ltb_spec n 128); [auto|lia].
  - assert (M : (n mod 128 < 128)%N) by (apply N.mod_lt; lia).
    destruct (N.ltb_spec (n mod 128 + 128) 128); [lia|].
    destruct w' as [|w']; [change (128 ^ N.of_nat 1)%N with 128%N in B; lia|].
    rewrite IH; [|lia|].
    + f_equal. f_equal. replace ((n mod 128 + 128) mod 128)%N with (n mod 128)%N.
      * pose proof (N.div_mod' n 128). lia.
      * symmetry. rewrite <- (N.mod_small (n mod 128) 128) at 2 by auto. rewrite N.add_mod by lia. rewrite N.mod_same by lia.
        rewrite N.add_0_r, !N.mod_mod by lia. auto.
    + apply N.div_lt_upper_bound; [lia|].
      replace (N.of_nat (S (S w'))) with (N.succ (N.of_nat (S w'))) in B by lia. rewrite N.pow_succ_r' in B. exact B.
Qed.

Lemma get_cut w : forall w' n front back, put_varint w n = front ++ back -> back <> [] -> get_varint w' front = None.
Proof.
  induction w as [|w IH]; intros w' n front back E Nb; cbn [put_varint] in E.
  - destruct front, back; try discriminate. congruence.
  - destruct front as [|b front]; [destruct w'; auto|].
    destruct (N.ltb_spec n 128).
    + destruct front, back; try discriminate. congruence.
    + cbn [app] in E. injection E as Eb E. subst b. destruct w' as [|w']; auto. cbn [get_varint].
      destruct (N.ltb_spec (n mod 128 + 128) 128); [lia|]. rewrite (IH w' (n / 128)%N front back E Nb). auto.
Qed.

Lemma get_varint_shorter w : forall bs n rest, get_varint w bs = Some (n, rest) -> length rest < length bs.
Proof.
  induction w as [|w IH]; intros [|b bs] n rest E; cbn in E; try discriminate.
  destruct (b <? 128)%N; [injection E as <- <-; cbn; lia|].
  destruct (get_varint w bs) as [[v r]|] eqn:E'; [|discriminate]. injection E as <- <-. apply IH in E'. cbn. lia.
Qed.

Lemma get_uint64_put n rest : (n < 2 ^ 64)%N -> get_uint64 (varint n ++ rest) = Some (n, rest).
Proof.
  intros B. unfold get_uint64, varint. rewrite (get_put 10 10); [|lia|eapply N.lt_trans; [exact B|reflexivity]].
  rewrite N.mod_small; auto.
Qed.

Lemma get_uint32_put n rest : (n < 2 ^ 32)%N -> get_uint32 (varint n ++ rest) = Some (n, rest).
Proof.
  intros B. unfold get_uint32, varint. rewrite (get_put 10 10); [|lia|eapply N.lt_trans; [exact B|reflexivity]].
  rewrite N.mod_small; auto.
Qed.

Lemma get_uint64_cut n front back : varint n = front ++ back -> back <> [] -> get_uint64 front = None.
Proof. intros E Nb. unfold get_uint64. erewrite get_cut; eauto. Qed.

Lemma get_uint32_cut n front back : varint n = front ++ back -> back <> [] -> get_uint32 front = None.
Proof. intros E Nb. unfold get_uint32. erewrite get_cut; eauto. Qed.

Lemma get_delimited_put body rest : (N.of_nat (length body) < 2 ^ 35)%N ->
  get_delimited (varint (N.of_nat (length body)) ++ body ++ rest) = Some (body, rest).
Proof.
  intros B. unfold get_delimited, varint. rewrite (get_put 10 5); [|lia|exact B].
  rewrite app_length. destruct (N.leb_spec (N.of_nat (length body)) (N.of_nat (length body + length rest))); [|lia].
  rewrite Nat2N.id, firstn_app, firstn_all, Nat.sub_diag, firstn_O, app_nil_r, skipn_app, skipn_all, Nat.sub_diag. auto.
Qed.

Lemma get_delimited_cut body front back : (N.of_nat (length body) < 2 ^ 35)%N ->
  varint (N.of_nat (length body)) ++ body = front ++ back -> back <> [] -> get_delimited front = None.
Proof.
  intros B E Nb. unfold get_delimited. destruct (app_prefix _ _ _ _ E Nb) as [(z & -> & Eb)|(z & Nz & Ef)].
  - unfold varint. rewrite (get_put 10 5); [|lia|exact B].
    destruct (N.leb_spec (N.of_nat (length body)) (N.of_nat (length z))) as [Le|]; auto.
    exfalso. rewrite Eb, app_length in Le. destruct back; [congruence|cbn in Le; lia].
  - erewrite get_cut; eauto.
Qed.

Lemma get_packed_put ns : (forall n, In n ns -> (n < 2 ^ 64)%N) -> forall fuel, length (flat_map varint ns) < fuel ->
  get_packed fuel (flat_map varint ns) = Ok (Some ns).
Proof.
  induction ns as [|n ns IH]; intros B [|fuel] L; cbn [flat_map] in *; try lia; auto.
  cbn [get_packed]. rewrite app_length in L.
  destruct (varint n ++ flat_map varint ns) as [|b bs] eqn:E.
  { apply app_eq_nil in E. destruct E as [E _]. apply put_varint_cons in E. discriminate. }
  rewrite <- E, get_uint64_put by (apply B; left; auto).
  rewrite IH; auto.
  - intros; apply B; right; auto.
  - assert (length (varint n) <> 0); [|lia]. intros Z. apply length_zero_iff_nil, put_varint_cons in Z. discriminate.
Qed.

(** ** Sequences of fields *)
Section Fields.
Context {A : Type} (step : A -> N -> N -> list byte -> res (option (A * list byte))).

(** [seg] is the encoding of one field, and reading it changes the message as
    [upd] does; it cannot be read before it is complete. *)
Record segment (seg : list byte) (upd : A -> A) : Prop := {
  sg_nonempty : seg <> [];
  sg_whole : forall acc fuel rest, fields step (S fuel) acc (seg ++ rest) = fields step fuel (upd acc) rest;
  sg_cut : forall acc fuel front back, seg = front ++ back -> front <> [] -> back <> [] ->
    fields step (S fuel) acc front = Ok None;
}.

Lemma segment_intro t body upd : (t < 128)%N -> (t / 8 <> 0)%N ->
  (forall acc rest, step acc (t / 8)%N (t mod 8)%N (body ++ rest) = Ok (Some (upd acc, rest))) ->
  (forall acc front back, body = front ++ back -> back <> [] -> step acc (t / 8)%N (t mod 8)%N front = Ok None) ->
  segment (t :: body) upd.
Proof.
  intros Bt Nt Wh Cu.
  assert (Gt : forall bs, get_tag (t :: bs) = Some (t, bs)).
  { intros bs. unfold get_tag. cbn [get_varint]. destruct (N.ltb_spec t 128); [|lia].
    rewrite N.mod_small; auto. eapply N.lt_trans; [exact Bt|reflexivity]. }
  constructor.
  - discriminate.
  - intros acc fuel rest. cbn [app fields]. rewrite Gt. destruct (N.eqb_spec (t / 8) 0); [lia|].
    rewrite Wh. reflexivity.
  - intros acc fuel front back E Nf Nb. destruct front as [|b front]; [congruence|]. cbn in E. injection E as <- E.
    cbn [fields]. rewrite Gt. destruct (N.eqb_spec (t / 8) 0); [lia|]. rewrite (Cu acc front back); auto.
Qed.

Definition apply_all (upds : list (A -> A)) (acc : A) : A := fold_left (fun a u => u a) upds acc.

(** What a prefix of a sequence of fields is read as. *)
Lemma fields_prefix segs upds : Forall2 segment segs upds -> forall fuel acc bs back,
  concat segs = bs ++ back -> length bs < fuel ->
  (exists n, n <= length segs /\ bs = concat (firstn n segs) /\ fields step fuel acc bs = Ok (Some (apply_all (firstn n upds) acc))) \/
  (fields step fuel acc bs = Ok None /\ forall n, bs <> concat (firstn n segs)).
Proof.
  induction 1 as [|seg upd segs upds Sg _ IH]; intros fuel acc bs back E L.
  - cbn in E. destruct bs; [|discriminate]. left. exists 0. split; [cbn; lia|]. split; auto. destruct fuel; [cbn in L; lia|]. reflexivity.
  - destruct fuel as [|fuel]; [lia|]. destruct bs as [|b bs0] eqn:Eb.
    { left. exists 0. split; [lia|]. split; reflexivity. }
    rewrite <- Eb in *. assert (Nb : bs <> []) by congruence. clear Eb.
    cbn [concat] in E.
    destruct (list_eq_dec N.eq_dec back []) as [->|Nk].
    + rewrite app_nil_r in E. subst bs. rewrite (sg_whole _ _ Sg).
      assert (L' : length (concat segs) < fuel).
      { rewrite app_length in L. pose proof (sg_nonempty _ _ Sg). destruct seg; [congruence|]. cbn in L. lia. }
      destruct (IH fuel (upd acc) (concat segs) [] ltac:(rewrite app_nil_r; auto) L') as [(n & Ln & En & Ef)|[Ef En]].
      * left. exists (S n). split; [cbn; lia|]. cbn [firstn concat]. rewrite <- En. split; auto.
      * exfalso. apply (En (length segs)). rewrite firstn_all. auto.
    + destruct (app_prefix _ _ _ _ E Nk) as [(z & -> & Ez)|(z & Nz & Es)].
      * rewrite (sg_whole _ _ Sg).
        assert (L' : length z < fuel).
        { rewrite app_length in L. pose proof (sg_nonempty _ _ Sg). destruct seg; [congruence|]. cbn in L. lia. }
        destruct (IH fuel (upd acc) z back Ez L') as [(n & Ln & En & Ef)|[Ef En]].
        -- left. exists (S n). split; [cbn; lia|]. cbn [firstn concat]. rewrite <- En. split; auto.
        -- right. split; auto. intros [|n]; cbn [firstn concat].
           ++ intros X. apply app_eq_nil in X. apply (sg_nonempty _ _ Sg). tauto.
           ++ intros X. apply app_inv_head in X. apply (En n). auto.
      * right. split; [eapply sg_cut; eauto|]. intros [|n]; cbn [firstn concat]; auto.
        intros X. rewrite Es in X. rewrite <- app_assoc in X. rewrite <- (app_nil_r bs) in X at 1. apply app_inv_head in X.
        symmetry in X. apply app_eq_nil in X. tauto.
Qed.

(** Everything is read. *)
Lemma fields_all segs upds fuel acc : Forall2 segment segs upds -> length (concat segs) < fuel ->
  fields step fuel acc (concat segs) = Ok (Some (apply_all upds acc)).
Proof.
  intros F. revert fuel acc. induction F as [|seg upd segs upds Sg _ IH]; intros [|fuel] acc L; try lia; cbn [concat] in *.
  - reflexivity.
  - rewrite (sg_whole _ _ Sg). apply IH. rewrite app_length in L. pose proof (sg_nonempty _ _ Sg).
    destruct seg; [congruence|cbn in L; lia].
Qed.

(** Reading ends. *)
Lemma fields_total : (forall acc k t bs, exists r, step acc k t bs = Ok r /\
    forall acc' rest, r = Some (acc', rest) -> length rest <= length bs) ->
  forall fuel acc bs, length bs < fuel -> exists r, fields step fuel acc bs = Ok r.
Proof.
  intros T. induction fuel as [|fuel IH]; intros acc bs L; [lia|]. cbn [fields].
  destruct bs as [|b bs']; [eauto|]. set (bs := b :: bs') in *.
  unfold get_tag. destruct (get_varint 5 bs) as [[t rest]|] eqn:E; [|eauto].
  apply get_varint_shorter in E. destruct (t mod 2 ^ 32 / 8 =? 0)%N; [eauto|].
  destruct (T acc (t mod 2 ^ 32 / 8)%N (t mod 2 ^ 32 mod 8)%N rest) as (r & -> & Lr). cbn [rbind].
  destruct r as [[acc' rest']|]; [|eauto]. apply IH. specialize (Lr _ _ eq_refl). lia.
Qed.
End Fields.

(** ** Edges *)
Definition uint_segs (k n : N) : list (list byte) := if (n =? 0)%N then [] else [tag k 0 :: varint n].
Definition uint_upds {A} (n : N) (upd : A -> A) : list (A -> A) := if (n =? 0)%N then [] else [upd].

Lemma uint_segs_concat k n : concat (uint_segs k n) = put_uint k n.
Proof. unfold uint_segs, put_uint. destruct (n =? 0)%N; cbn [concat]; auto. rewrite app_nil_r. auto. Qed.

Lemma uint_segment {A} (step : A -> N -> N -> list byte -> res (option (A * list byte))) k n upd :
  (0 < k < 16)%N -> (forall acc rest, step acc k 0%N (varint n ++ rest) = Ok (Some (upd acc, rest))) ->
  (forall acc front back, varint n = front ++ back -> back <> [] -> step acc k 0%N front = Ok None) ->
  Forall2 (segment step) (uint_segs k n) (uint_upds n upd).
Proof.
  intros Bk Wh Cu. unfold uint_segs, uint_upds. destruct (n =? 0)%N; constructor; [|constructor].
  assert (T : (tag k 0 / 8 = k)%N) by (unfold tag; rewrite N.add_0_r, N.div_mul; lia).
  assert (M : (tag k 0 mod 8 = 0)%N) by (unfold tag; rewrite N.add_0_r, N.mod_mul; lia).
  apply segment_intro; rewrite ?T, ?M; auto; try lia; unfold tag; lia.
Qed.

Lemma delimited_segment {A} (step : A -> N -> N -> list byte -> res (option (A * list byte))) k body upd :
  (0 < k < 15)%N -> (N.of_nat (length body) < 2 ^ 35)%N ->
  (forall acc bs rest, get_delimited bs = Some (body, rest) -> step acc k 2%N bs = Ok (Some (upd acc, rest))) ->
  (forall acc bs, get_delimited bs = None -> step acc k 2%N bs = Ok None) ->
  segment step (put_delimited k body) upd.
Proof.
  intros Bk Bl Wh Cu. unfold put_delimited.
  assert (T : (tag k 2 / 8 = k)%N).
  { unfold tag. symmetry. apply N.div_unique with 2%N; lia. }
  assert (M : (tag k 2 mod 8 = 2)%N).
  { unfold tag. symmetry. apply N.mod_unique with k; lia. }
  assert (B : (tag k 2 < 128)%N) by (unfold tag; lia).
  apply segment_intro; rewrite ?T, ?M; [exact B|lia| |].
  - intros acc rest. rewrite <- app_assoc. apply Wh, get_delimited_put. auto.
  - intros acc front back E Nb. apply Cu. eapply get_delimited_cut; eauto.
Qed.

Definition edge_segs (e : edge_msg) : list (list byte) :=
  uint_segs 1 (em_source e) ++ uint_segs 2 (em_label e) ++ uint_segs 3 (em_target e).
Definition edge_upds (e : edge_msg) : list (edge_msg -> edge_msg) :=
  uint_upds (em_source e) (fun x => EdgeMsg (em_source e) (em_label x) (em_target x)) ++
  uint_upds (em_label e) (fun x => EdgeMsg (em_source x) (em_label e) (em_target x)) ++
  uint_upds (em_target e) (fun x => EdgeMsg (em_source x) (em_label x) (em_target e)).

Lemma edge_segs_concat e : concat (edge_segs e) = put_edge e.
Proof. unfold edge_segs, put_edge. rewrite !concat_app, !uint_segs_concat. auto. Qed.

Lemma decode_edge_put e : (em_source e < 2 ^ 64)%N -> (em_label e < 2 ^ 32)%N -> (em_target e < 2 ^ 64)%N ->
  decode_edge (put_edge e) = Ok (Some e).
Proof.
  intros Bs Bl Bt. unfold decode_edge. rewrite <- edge_segs_concat.
  rewrite fields_all with (upds := edge_upds e).
  - f_equal. f_equal. unfold apply_all, edge_upds, uint_upds. destruct e as [s l t]; cbn [em_source em_label em_target].
    destruct (N.eqb_spec s 0), (N.eqb_spec l 0), (N.eqb_spec t 0); subst; reflexivity.
  - unfold edge_segs, edge_upds.
    apply Forall2_app; [|apply Forall2_app]; apply uint_segment; try lia; intros acc; cbn [edge_field].
    + intros rest. rewrite get_uint64_put; auto.
    + intros front back E Nb. erewrite get_uint64_cut; eauto.
    + intros rest. rewrite get_uint32_put; auto.
    + intros front back E Nb. erewrite get_uint32_cut; eauto.
    + intros rest. rewrite get_uint64_put; auto.
    + intros front back E Nb. erewrite get_uint64_cut; eauto.
  - lia.
Qed.

(** ** Messages *)
Definition packed_segs (k : N) (ns : list N) : list (list byte) :=
  match ns with [] => [] | _ => [put_delimited k (flat_map varint ns)] end.
Definition packed_upds {A} (ns : list N) (upd : A -> A) : list (A -> A) := match ns with [] => [] | _ => [upd] end.

Lemma packed_segs_concat k ns : concat (packed_segs k ns) = put_packed k ns.
Proof. destruct ns; auto. cbn [packed_segs concat]. rewrite app_nil_r. auto. Qed.

Lemma packed_field_put ns rest : (forall n, In n ns -> (n < 2 ^ 64)%N) -> (N.of_nat (length (flat_map varint ns)) < 2 ^ 35)%N ->
  packed_field (varint (N.of_nat (length (flat_map varint ns))) ++ flat_map varint ns ++ rest) = Ok (Some (ns, rest)).
Proof. intros B L. unfold packed_field. rewrite get_delimited_put by auto. rewrite get_packed_put by (auto; lia). auto. Qed.

Definition set_nodes ns m := Message (m_nodes m ++ ns) (m_finals m) (m_edges m) (m_root m) (m_size m).
Definition set_finals ns m := Message (m_nodes m) (m_finals m ++ ns) (m_edges m) (m_root m) (m_size m).
Definition set_edge e m := Message (m_nodes m) (m_finals m) (m_edges m ++ [e]) (m_root m) (m_size m).
Definition set_root n m := Message (m_nodes m) (m_finals m) (m_edges m) n (m_size m).
Definition set_size n m := Message (m_nodes m) (m_finals m) (m_edges m) (m_root m) n.

(** The fields before the root. *)
Definition front_segs (m : message) : list (list byte) :=
  packed_segs 1 (m_nodes m) ++ packed_segs 2 (m_finals m) ++ map (fun e => put_delimited 3 (put_edge e)) (m_edges m).
Definition front_upds (m : message) : list (message -> message) :=
  packed_upds (m_nodes m) (set_nodes (m_nodes m)) ++ packed_upds (m_finals m) (set_finals (m_finals m)) ++
  map set_edge (m_edges m).

Definition message_segs (m : message) : list (list byte) :=
  front_segs m ++ uint_segs 4 (m_root m) ++ uint_segs 5 (m_size m).
Definition message_upds (m : message) : list (message -> message) :=
  front_upds m ++ uint_upds (m_root m) (set_root (m_root m)) ++ uint_upds (m_size m) (set_size (m_size m)).

Lemma message_segs_concat m : concat (message_segs m) = encode m.
Proof.
  unfold message_segs, front_segs, encode. rewrite !concat_app, !packed_segs_concat, !uint_segs_concat, <- !app_assoc.
  rewrite flat_map_concat_map. auto.
Qed.

Lemma seg_length m seg : In seg (message_segs m) -> length seg <= length (encode m).
Proof.
  rewrite <- message_segs_concat. induction (message_segs m) as [|s l IH]; cbn [concat]; [intros []|].
  intros [->|I]; rewrite app_length; [lia|]. apply IH in I. lia.
Qed.

Lemma delimited_length k body : length body <= length (put_delimited k body).
Proof. unfold put_delimited. cbn [length]. rewrite app_length. lia. Qed.

Lemma int_max_small n : (n <= INT_MAX)%N -> (n < 2 ^ 35)%N.
Proof. intros. eapply N.le_lt_trans; [eassumption|reflexivity]. Qed.

Lemma message_segments m : in_range m -> not_too_long m -> Forall2 (segment message_field) (message_segs m) (message_upds m).
Proof.
  intros R Lm.
  assert (Bd : forall k body, In (put_delimited k body) (message_segs m) -> (N.of_nat (length body) < 2 ^ 35)%N).
  { intros k body I. apply int_max_small. apply seg_length in I. pose proof (delimited_length k body). unfold not_too_long in Lm. lia. }
  unfold message_segs, message_upds, front_segs, front_upds in *.
  repeat apply Forall2_app.
  - unfold packed_segs, packed_upds in *. destruct (m_nodes m) as [|n ns] eqn:En; constructor; [|constructor].
    assert (B : (N.of_nat (length (flat_map varint (n :: ns))) < 2 ^ 35)%N).
    { apply Bd with 1%N. apply in_or_app. left. apply in_or_app. left. left. auto. }
    apply delimited_segment; auto; try lia.
    + intros acc bs rest E. cbn [message_field]. unfold packed_field. rewrite E, get_packed_put.
      * reflexivity.
      * rewrite <- En. apply R.
      * lia.
    + intros acc bs E. cbn [message_field]. unfold packed_field. rewrite E. reflexivity.
  - unfold packed_segs, packed_upds in *. destruct (m_finals m) as [|n ns] eqn:En; constructor; [|constructor].
    assert (B : (N.of_nat (length (flat_map varint (n :: ns))) < 2 ^ 35)%N).
    { apply Bd with 2%N. apply in_or_app. left. apply in_or_app. right. left. auto. }
    apply delimited_segment; auto; try lia.
    + intros acc bs rest E. cbn [message_field]. unfold packed_field. rewrite E, get_packed_put.
      * reflexivity.
      * rewrite <- En. apply R.
      * lia.
    + intros acc bs E. cbn [message_field]. unfold packed_field. rewrite E. reflexivity.
  - assert (B : forall e, In e (m_edges m) -> (N.of_nat (length (put_edge e)) < 2 ^ 35)%N).
    { intros e I. apply Bd with 3%N. apply in_or_app. left. apply in_or_app. right. apply in_or_app. right.
      apply in_map_iff. exists e. auto. }
    pose proof (ir_edges _ R) as Re. clear - B Re. induction (m_edges m) as [|e es IH]; cbn [map]; constructor.
    + destruct (Re e (or_introl eq_refl)) as (B1 & B2 & B3).
      apply delimited_segment; try lia; [apply B; left; auto| |].
      * intros acc bs rest E. cbn [message_field]. rewrite E, decode_edge_put by auto. reflexivity.
      * intros acc bs E. cbn [message_field]. rewrite E. reflexivity.
    + apply IH; intros; [apply B|apply Re]; right; auto.
  - apply uint_segment; [lia| |]; intros acc; cbn [message_field].
    + intros rest. rewrite get_uint64_put; [auto|apply (ir_root _ R)].
    + intros front back E Nb. erewrite get_uint64_cut; eauto.
  - apply uint_segment; [lia| |]; intros acc; cbn [message_field].
    + intros rest. rewrite get_uint64_put; [auto|apply (ir_size _ R)].
    + intros front back E Nb. erewrite get_uint64_cut; eauto.
Qed.

Lemma apply_all_app {A} (u v : list (A -> A)) acc : apply_all (u ++ v) acc = apply_all v (apply_all u acc).
Proof. unfold apply_all. apply fold_left_app. Qed.

Lemma apply_packed_nodes ns m : apply_all (packed_upds ns (set_nodes ns)) m = set_nodes ns m.
Proof. destruct ns; auto. unfold set_nodes. cbn. rewrite app_nil_r. destruct m; auto. Qed.
Lemma apply_packed_finals ns m : apply_all (packed_upds ns (set_finals ns)) m = set_finals ns m.
Proof. destruct ns; auto. unfold set_finals. cbn. rewrite app_nil_r. destruct m; auto. Qed.
Lemma apply_edges es m : apply_all (map set_edge es) m = Message (m_nodes m) (m_finals m) (m_edges m ++ es) (m_root m) (m_size m).
Proof.
  unfold apply_all. revert m. induction es as [|e es IH]; intros m; cbn [map fold_left].
  - rewrite app_nil_r. destruct m; auto.
  - rewrite IH. unfold set_edge. cbn. rewrite <- app_assoc. auto.
Qed.

Lemma apply_front m : apply_all (front_upds m) empty_message = Message (m_nodes m) (m_finals m) (m_edges m) 0 0.
Proof.
  unfold front_upds. rewrite !apply_all_app, apply_packed_nodes, apply_packed_finals, apply_edges. reflexivity.
Qed.

Lemma apply_uint_root n m : m_root m = 0%N -> apply_all (uint_upds n (set_root n)) m = set_root n m.
Proof. intros E. unfold uint_upds. destruct (N.eqb_spec n 0); auto. subst. cbn. unfold set_root. rewrite <- E. destruct m; auto. Qed.
Lemma apply_uint_size n m : m_size m = 0%N -> apply_all (uint_upds n (set_size n)) m = set_size n m.
Proof. intros E. unfold uint_upds. destruct (N.eqb_spec n 0); auto. subst. cbn. unfold set_size. rewrite <- E. destruct m; auto. Qed.

Lemma decode_encode m : in_range m -> not_too_long m -> decode (encode m) = Ok (Some m).
Proof.
  intros R Lm. unfold decode. unfold not_too_long in Lm. destruct (N.leb_spec (N.of_nat (length (encode m))) INT_MAX); [|lia].
  rewrite <- message_segs_concat. rewrite fields_all with (upds := message_upds m); [|apply message_segments; auto|lia].
  f_equal. f_equal. unfold message_upds. change (Message [] [] [] 0 0) with empty_message.
  rewrite !apply_all_app, apply_front, apply_uint_root, apply_uint_size by auto. destruct m; auto.
Qed.

(** What is left of a message whose end is missing. *)
Record beginning (m m' : message) : Prop := {
  bg_nodes : m_nodes m' = m_nodes m \/ m_nodes m' = [] /\ m_finals m' = [] /\ m_edges m' = [];
  bg_finals : incl (m_finals m') (m_finals m);
  bg_edges : exists rest, m_edges m = m_edges m' ++ rest;
  bg_root : m_root m' = 0%N;
  bg_size : m_size m' = 0%N;
}.

Lemma beginning_firstn m n : let m' := apply_all (firstn n (front_upds m)) empty_message in
  beginning m m' /\ (n <> 0 -> m_nodes m' = m_nodes m).
Proof.
  cbv zeta.
  unfold front_upds. rewrite !firstn_app, !apply_all_app.
  assert (P : forall k, apply_all (firstn k (packed_upds (m_nodes m) (set_nodes (m_nodes m)))) empty_message =
    if k =? 0 then empty_message else set_nodes (m_nodes m) empty_message).
  { intros [|k]; [reflexivity|]. cbn [Nat.eqb]. rewrite firstn_all2; [apply apply_packed_nodes|].
    destruct (m_nodes m); cbn; lia. }
  rewrite P. destruct n as [|n]; cbn [Nat.eqb].
  { cbn [Nat.sub firstn]. split; [|congruence]. constructor; cbn; auto; [intros x []|eauto]. }
  set (k := S n - length (packed_upds (m_nodes m) (set_nodes (m_nodes m)))).
  assert (Q : forall k x, m_finals x = [] -> exists fs, incl fs (m_finals m) /\
    apply_all (firstn k (packed_upds (m_finals m) (set_finals (m_finals m)))) x = set_finals fs x).
  { intros [|k'] x E.
    - exists []. split; [intros ? []|]. cbn. unfold set_finals. rewrite app_nil_r. destruct x; auto.
    - exists (m_finals m). split; [intros ? ?; auto|]. rewrite firstn_all2; [apply apply_packed_finals|].
      destruct (m_finals m); cbn; lia. }
  destruct (Q k (set_nodes (m_nodes m) empty_message) eq_refl) as (fs & I & ->).
  rewrite firstn_map, apply_edges. split; [|auto]. constructor; cbn; auto.
  eexists. symmetry. apply firstn_skipn.
Qed.

Lemma decode_cut m bs : in_range m -> not_too_long m -> (m_root m <> 0)%N -> cut_short bs (encode m) ->
  decode bs = Ok None \/
  (exists m', decode bs = Ok (Some m') /\ beginning m m' /\ (bs <> [] -> m_nodes m' = m_nodes m)) \/
  ((m_size m <> 0)%N /\ decode bs = Ok (Some (set_size 0 m))).
Proof.
  intros R Lm Nr (back & Nb & E).
  assert (Lb : (N.of_nat (length bs) <= INT_MAX)%N).
  { unfold not_too_long in Lm. rewrite E, app_length in Lm. lia. }
  unfold decode. destruct (N.leb_spec (N.of_nat (length bs)) INT_MAX); [|lia].
  change (Message [] [] [] 0 0) with empty_message.
  pose proof (message_segments m R Lm) as F.
  assert (Lf : length (front_segs m) = length (front_upds m)).
  { unfold front_segs, front_upds. rewrite !app_length, !map_length. f_equal; [destruct (m_nodes m); auto|].
    f_equal. destruct (m_finals m); auto. }
  rewrite <- message_segs_concat in E.
  destruct (fields_prefix message_field _ _ F (S (length bs)) empty_message bs back E ltac:(lia)) as [(n & Ln & En & ->)|[-> _]]; auto.
  right. unfold message_upds, message_segs in *. rewrite firstn_app, apply_all_app.
  destruct (Nat.le_gt_cases n (length (front_upds m))) as [Le|Gt].
  - left. eexists. split; [reflexivity|]. rewrite (proj2 (Nat.sub_0_le _ _) Le). cbn [firstn apply_all fold_left].
    destruct (beginning_firstn m n) as (Bg & Nn). split; auto. intros Ne. apply Nn. intros ->. apply Ne. rewrite En. reflexivity.
  - right. rewrite (firstn_all2 (front_upds m)) by lia. rewrite apply_front.
    unfold uint_segs, uint_upds in *. destruct (N.eqb_spec (m_root m) 0); [congruence|].
    destruct (N.eqb_spec (m_size m) 0) as [Z|NZ].
    + exfalso. apply Nb. rewrite firstn_all2 in En by (rewrite app_length; cbn; lia).
      rewrite <- En in E. rewrite <- (app_nil_r bs) in E at 1. apply app_inv_head in E. auto.
    + split; auto. destruct (Nat.eq_dec n (S (length (front_upds m)))) as [->|Ne].
      * replace (S (length (front_upds m)) - length (front_upds m)) with 1 by lia. cbn. reflexivity.
      * exfalso. apply Nb. rewrite firstn_all2 in En by (rewrite app_length; cbn; lia).
        rewrite <- En in E. rewrite <- (app_nil_r bs) in E at 1. apply app_inv_head in E. auto.
Qed.

(** ** Reading ends, whatever the bytes *)
Lemma get_delimited_shorter bs body rest : get_delimited bs = Some (body, rest) -> length rest <= length bs.
Proof.
  unfold get_delimited. destruct (get_varint 5 bs) as [[n r]|] eqn:E; [|discriminate].
  destruct (n <=? N.of_nat (length r))%N; [|discriminate]. intros X. injection X as <- <-.
  apply get_varint_shorter in E. rewrite skipn_length. lia.
Qed.

Lemma get_uint64_shorter bs n rest : get_uint64 bs = Some (n, rest) -> length rest < length bs.
Proof.
  unfold get_uint64. destruct (get_varint 10 bs) as [[v r]|] eqn:E; [|discriminate]. intros X. injection X as <- <-.
  eapply get_varint_shorter; eauto.
Qed.

Lemma get_uint32_shorter bs n rest : get_uint32 bs = Some (n, rest) -> length rest < length bs.
Proof.
  unfold get_uint32. destruct (get_varint 10 bs) as [[v r]|] eqn:E; [|discriminate]. intros X. injection X as <- <-.
  eapply get_varint_shorter; eauto.
Qed.

Lemma skip_scalar_shorter t bs rest : skip_scalar t bs = Some rest -> length rest <= length bs.
Proof.
  unfold skip_scalar. intros E.
  assert (U : match get_uint64 bs with Some (_, r) => Some r | None => None end = Some rest -> length rest <= length bs).
  { destruct (get_uint64 bs) as [[n r]|] eqn:G; [|discriminate]. intros X. injection X as <-. apply get_uint64_shorter in G. lia. }
  assert (D : match get_delimited bs with Some (_, r) => Some r | None => None end = Some rest -> length rest <= length bs).
  { destruct (get_delimited bs) as [[n r]|] eqn:G; [|discriminate]. intros X. injection X as <-. apply get_delimited_shorter in G. lia. }
  assert (K : forall k (c : bool), (if c then Some (skipn k bs) else None) = Some rest -> length rest <= length bs).
  { intros k [] X; [|discriminate]. injection X as <-. rewrite skipn_length. lia. }
  destruct t as [|[[[]|[]|]|[[]|[]|]|]]; try discriminate; auto; eapply K; eauto.
Qed.

Lemma get_packed_total : forall fuel bs, length bs < fuel -> exists r, get_packed fuel bs = Ok r.
Proof.
  induction fuel as [|fuel IH]; intros bs L; [lia|]. cbn [get_packed]. destruct bs as [|b bs']; [eauto|].
  destruct (get_uint64 (b :: bs')) as [[n rest]|] eqn:E; [|eauto]. apply get_uint64_shorter in E.
  destruct (IH rest) as (r & ->); [lia|]. cbn [rbind]. destruct r; eauto.
Qed.

Lemma packed_field_total bs : exists r, packed_field bs = Ok r /\
  forall ns rest, r = Some (ns, rest) -> length rest <= length bs.
Proof.
  unfold packed_field. destruct (get_delimited bs) as [[body rest]|] eqn:E; [|eexists; split; [reflexivity|discriminate]].
  apply get_delimited_shorter in E. destruct (get_packed_total (S (length body)) body ltac:(lia)) as (r & ->). cbn [rbind].
  destruct r; eexists; (split; [reflexivity|]); [|discriminate]. intros ns' rest' X. injection X as <- <-. auto.
Qed.

Definition settles {A} (bs : list byte) (c : res (option (A * list byte))) : Prop :=
  exists r, c = Ok r /\ forall acc rest, r = Some (acc, rest) -> length rest <= length bs.

Lemma get_tag_shorter bs t rest : get_tag bs = Some (t, rest) -> length rest < length bs.
Proof.
  unfold get_tag. destruct (get_varint 5 bs) as [[v r]|] eqn:E; [|discriminate]. intros X. injection X as <- <-.
  eapply get_varint_shorter; eauto.
Qed.

Lemma skip_groups_total fuel : forall limit open bs, length bs < fuel ->
  exists r, skip_groups fuel limit open bs = Ok r /\ forall rest, r = Some rest -> length rest <= length bs.
Proof.
  induction fuel as [|fuel IH]; intros limit open bs L; [lia|]. cbn [skip_groups].
  destruct open as [|g open]; [eexists; split; [reflexivity|]; intros rest X; injection X as <-; auto|].
  assert (No : exists r, Ok None = Ok r /\ forall rest : list byte, r = Some rest -> length rest <= length bs)
    by (eexists; split; [reflexivity|discriminate]).
  assert (Go : forall limit open r, length r < length bs ->
    exists r', skip_groups fuel limit open r = Ok r' /\ forall rest, r' = Some rest -> length rest <= length bs).
  { intros limit' open' r Lr. destruct (IH limit' open' r ltac:(lia)) as (r' & E & H). exists r'. split; auto.
    intros rest X. specialize (H rest X). lia. }
  destruct (get_tag bs) as [[t r]|] eqn:E; auto. apply get_tag_shorter in E.
  destruct (t / 8 =? 0)%N; auto. destruct (t mod 8 =? 4)%N; [destruct (t / 8 =? g)%N; auto|].
  destruct (t mod 8 =? 3)%N; [destruct limit; auto|].
  destruct (skip_scalar (t mod 8) r) as [r'|] eqn:E'; auto. apply skip_scalar_shorter in E'. apply Go. lia.
Qed.

Lemma settles_skip {A} limit (acc : A) k t bs : settles bs (skip limit acc k t bs).
Proof.
  unfold settles, skip, skip_value.
  assert (X : exists r, (if (t =? 3)%N then match limit with O => Ok None | S l => skip_groups (S (length bs)) l [k] bs end
    else Ok (skip_scalar t bs)) = Ok r /\ forall rest, r = Some rest -> length rest <= length bs).
  { destruct (t =? 3)%N.
    - destruct limit as [|l]; [eexists; split; [reflexivity|discriminate]|]. apply skip_groups_total. lia.
    - eexists; split; [reflexivity|]. intros rest. apply skip_scalar_shorter. }
  destruct X as (r & -> & H). cbn [rbind]. eexists; split; [reflexivity|]. intros acc' rest. destruct r; [|discriminate].
  intros X. injection X as <- <-. auto.
Qed.

Lemma settles_uint64 {A} (f : N -> A) bs :
  settles bs (Ok (match get_uint64 bs with Some (n, rest) => Some (f n, rest) | None => None end)).
Proof.
  eexists; split; [reflexivity|]. intros acc rest. destruct (get_uint64 bs) as [[n r]|] eqn:E; [|discriminate].
  intros X. injection X as <- <-. apply get_uint64_shorter in E. lia.
Qed.

Lemma settles_uint32 {A} (f : N -> A) bs :
  settles bs (Ok (match get_uint32 bs with Some (n, rest) => Some (f n, rest) | None => None end)).
Proof.
  eexists; split; [reflexivity|]. intros acc rest. destruct (get_uint32 bs) as [[n r]|] eqn:E; [|discriminate].
  intros X. injection X as <- <-. apply get_uint32_shorter in E. lia.
Qed.

Lemma settles_packed {A} (f : list N -> A) bs :
  settles bs (do r <- packed_field bs; Ok (match r with Some (ns, rest) => Some (f ns, rest) | None => None end)).
Proof.
  destruct (packed_field_total bs) as (r & -> & L). cbn [rbind]. eexists; split; [reflexivity|]. intros acc rest.
  destruct r as [[ns r]|]; [|discriminate]. intros X. injection X as <- <-. eapply L; eauto.
Qed.

Lemma edge_field_total e k t bs : settles bs (edge_field e k t bs).
Proof.
  unfold edge_field.
  repeat match goal with |- context [match ?x with _ => _ end] => is_var x; destruct x end;
    auto using settles_skip, settles_uint32;
    try apply settles_skip.
  all: try (apply (settles_uint64 (fun n => EdgeMsg n (em_label e) (em_target e)))).
  all: try (apply (settles_uint64 (fun n => EdgeMsg (em_source e) (em_label e) n))).
  all: try (apply (settles_uint32 (fun n => EdgeMsg (em_source e) n (em_target e)))).
Qed.

Lemma decode_edge_total bs : exists r, decode_edge bs = Ok r.
Proof. unfold decode_edge. eapply fields_total; [intros; apply edge_field_total|lia]. Qed.

Lemma message_field_total m k t bs : settles bs (message_field m k t bs).
Proof.
  assert (Ed : settles bs match get_delimited bs with
      | None => Ok None
      | Some (body, rest) =>
          do e <- decode_edge body;
          Ok (match e with
              | Some e => Some (Message (m_nodes m) (m_finals m) (m_edges m ++ [e]) (m_root m) (m_size m), rest)
              | None => None end)
      end).
  { destruct (get_delimited bs) as [[body rest]|] eqn:E; [|eexists; split; [reflexivity|discriminate]].
    apply get_delimited_shorter in E. destruct (decode_edge_total body) as (r & ->). cbn [rbind].
    eexists; split; [reflexivity|]. intros acc rest'. destruct r; [|discriminate]. intros X. injection X as <- <-. auto. }
  unfold message_field.
  repeat match goal with |- context [match ?x with _ => _ end] => is_var x; destruct x end;
    try apply settles_skip; try exact Ed;
    try apply (settles_packed (fun ns => Message (m_nodes m ++ ns) (m_finals m) (m_edges m) (m_root m) (m_size m)));
    try apply (settles_packed (fun ns => Message (m_nodes m) (m_finals m ++ ns) (m_edges m) (m_root m) (m_size m)));
    try apply (settles_uint64 (fun n => Message (m_nodes m ++ [n]) (m_finals m) (m_edges m) (m_root m) (m_size m)));
    try apply (settles_uint64 (fun n => Message (m_nodes m) (m_finals m ++ [n]) (m_edges m) (m_root m) (m_size m)));
    try apply (settles_uint64 (fun n => Message (m_nodes m) (m_finals m) (m_edges m) n (m_size m)));
    try apply (settles_uint64 (fun n => Message (m_nodes m) (m_finals m) (m_edges m) (m_root m) n)).
Qed.

Lemma decode_total bs : exists r, decode bs = Ok r.
Proof.
  unfold decode. destruct (N.of_nat (length bs) <=? INT_MAX)%N; [|eauto].
  eapply fields_total; [intros; apply message_field_total|lia].
Qed.

(** ** What becomes of the beginning of a message *)
Lemma node_at_absent nodes i : (forall p, find_node nodes i <> Some p) -> node_at nodes i = null.
Proof. intros H. unfold node_at. destruct (find_node nodes i) as [p|] eqn:E; auto. destruct (H p). auto. Qed.

Lemma NoDup_map_on {A B} (f : A -> B) l : (forall x y, In x l -> In y l -> f x = f y -> x = y) -> NoDup l -> NoDup (map f l).
Proof.
  intros I N. induction N as [|x l NI N IH]; cbn; constructor.
  - intros J. apply in_map_iff in J. destruct J as (y & E & J). apply NI. rewrite (I x y); auto; [left; auto|right; auto].
  - apply IH. intros; apply I; auto; right; auto.
Qed.

Lemma NoDup_front {A} (l k : list A) : NoDup (l ++ k) -> NoDup l.
Proof.
  induction l as [|x l IH]; cbn; intros N; constructor; inversion N; subst; auto.
  intros I. apply H1, in_or_app. auto.
Qed.

Lemma from_beginning alloc h m m' : allocator alloc -> well_formed m -> NoDup (m_nodes m) -> ~ In 0%N (m_nodes m) -> beginning m m' ->
  exists h', from_protobuf alloc h m' = Ok (h', Builder (Dawg null 0) [] None) /\
    exists made, NoDup made /\ length made = length (m_nodes m') /\
      (forall p, In p made -> ~ allocated h p /\ allocated h' p) /\
      (forall p, ~ In p made -> hget h' p = hget h p).
Proof.
  intros A Wf ND NZ B.
  assert (Inc : forall i, In i (m_nodes m') -> In i (m_nodes m)).
  { destruct (bg_nodes _ _ B) as [->|(-> & _)]; auto. intros i []. }
  assert (ND' : NoDup (m_nodes m')).
  { destruct (bg_nodes _ _ B) as [->|(-> & _)]; auto. constructor. }
  destruct (bg_edges _ _ B) as (rest & Er).
  assert (Src : forall e, In e (m_edges m') -> In (em_source e) (m_nodes m') /\ In (em_target e) (m_nodes m')).
  { intros e I. destruct (bg_nodes _ _ B) as [->|(_ & _ & E0)]; [|rewrite E0 in I; destruct I].
    assert (I' : In e (m_edges m)) by (rewrite Er; apply in_or_app; auto).
    split; [apply (wf_source _ Wf) | apply (wf_target _ Wf)]; auto. }
  unfold from_protobuf.
  destruct (make_nodes_ok alloc h (m_finals m') A (m_nodes m') h [] []) as (h1 & nodes & E1 & all & I & D & L).
  { intros i; cbn; split; [tauto|]. intros [? X]. discriminate. }
  { constructor; cbn; try tauto. }
  rewrite E1.
  destruct (link_edges_ok nodes h all (m_finals m') (m_edges m') h1 [] L) as (h2 & E2 & L2).
  - cbn [app]. pose proof (wf_keys _ Wf) as K. rewrite Er, map_app in K. apply NoDup_front in K. auto.
  - intros e Ie. rewrite !I. destruct (Src e Ie). auto.
  - rewrite E2. cbn [rbind app] in *. exists h2. rewrite (bg_root _ _ B), (bg_size _ _ B). split.
    + rewrite node_at_absent; auto. intros p X. apply NZ, Inc.
      assert (Ia : In 0%N all) by (apply D; eauto). apply I in Ia. destruct Ia as [[]|Ia]; auto.
    + assert (I' : forall i, In i (m_nodes m') <-> In i all) by (intros; rewrite I; cbn; tauto).
      exists (map (node_at nodes) (m_nodes m')). split; [|split; [apply map_length|split]].
      * apply NoDup_map_on; auto. intros x y X Y. apply (lo_inj _ _ _ _ _ _ L2); apply I'; auto.
      * intros p J. apply in_map_iff in J. destruct J as (i & <- & J). apply I' in J.
        destruct (lo_fresh _ _ _ _ _ _ L2 i J) as (_ & Fr). destruct (lo_node _ _ _ _ _ _ L2 i J) as (n & G & _).
        unfold allocated. rewrite Fr, G. split; [tauto|discriminate].
      * intros p J. apply (lo_rest _ _ _ _ _ _ L2). intros i X ->. apply J, in_map, I'. auto.
Qed.
