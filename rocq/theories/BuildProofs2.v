(** * BuildProofs2: add, finish, clean_up, destruction. *)
From Coq Require Import Sorting.Sorted.
From Verif Require Import Base Spec ModelHash ModelDawg SpecDawg TreeProofs HeapProofs BuildProofs.

Lemma minimize_loop_keeps : forall k B h0 h root w frs t0,
  inv B h0 h root w frs t0 -> height (fill frs t0) <= B -> k <= length (w_unchecked w) ->
  exists h' w' frs' t0',
    (forall fuel, B <= fuel -> minimize_loop k fuel h w = Ok (h', w')) /\
    inv B h0 h' root w' frs' t0' /\
    fill frs' t0' = fill frs t0 /\
    w_unchecked w' = skipn k (w_unchecked w) /\
    match k with
    | O => h' = h /\ w' = w
    | S k' => exists tr n', nth_error (w_unchecked w) k' = Some tr /\
        hget h' (top root (w_unchecked w')) = Some n' /\
        forall d q, In (d, q) (nedges n') -> (uchar d <= uchar (t_label tr))%N
    end /\
    keeps root h w h' w'.
Proof.
  induction k as [|k IH]; intros B h0 h root w frs t0 I Ht Lk.
  - exists h, w, frs, t0. split; [auto|]. split; [auto|]. split; [auto|]. split; [auto|]. split; auto using keeps_refl.
  - destruct w as [[|[c s t] un] m fl]; cbn [w_unchecked length] in *; [lia|].
    destruct (minimize_step_keeps B h0 h root c s t un m fl frs t0 I) as (h1 & m1 & frs1 & t1 & n1 & E & I1 & Fl & G1 & L1 & K1).
    { pose proof (height_fill frs t0). lia. }
    destruct (IH B h0 h1 root (Work un m1 fl) frs1 t1 I1) as (h2 & w2 & frs2 & t2 & E2 & I2 & Fl2 & U2 & D2 & K2).
    { rewrite Fl. auto. } { cbn. lia. }
    exists h2, w2, frs2, t2.
    split. { intros. rewrite E by auto. auto. }
    split; [auto|]. split; [congruence|]. split; [auto|]. split; [|eapply keeps_trans; eauto].
    destruct k as [|k].
    + destruct D2 as [-> ->]. cbn. exists (Trans c s t), n1. auto.
    + cbn [nth_error w_unchecked] in *. auto.
Qed.

Lemma minimize_loop_ok : forall k B h0 h root w frs t0,
  inv B h0 h root w frs t0 -> height (fill frs t0) <= B -> k <= length (w_unchecked w) ->
  exists h' w' frs' t0',
    (forall fuel, B <= fuel -> minimize_loop k fuel h w = Ok (h', w')) /\
    inv B h0 h' root w' frs' t0' /\
    fill frs' t0' = fill frs t0 /\
    w_unchecked w' = skipn k (w_unchecked w) /\
    match k with
    | O => h' = h /\ w' = w
    | S k' => exists tr n', nth_error (w_unchecked w) k' = Some tr /\
        hget h' (top root (w_unchecked w')) = Some n' /\
        forall d q, In (d, q) (nedges n') -> (uchar d <= uchar (t_label tr))%N
    end.
Proof.
  intros k B h0 h root w frs t0 I Ht Lk.
  destruct (minimize_loop_keeps k B h0 h root w frs t0 I Ht Lk) as (h' & w' & frs' & t0' & X1 & X2 & X3 & X4 & X5 & _).
  exists h', w', frs', t0'. auto.
Qed.

(** ** Appending fresh nodes *)
Lemma hget_null_top : forall B h0 h root w frs t0 p, inv B h0 h root w frs t0 ->
  In p (root :: targets (w_unchecked w)) -> p <> null /\ In p (root :: w_floating w).
Proof.
  intros B h0 h root w frs t0 p I J.
  assert (In p (root :: w_floating w)) as K.
  { destruct J as [<-|J]; [left; auto|right]. apply (iv_tfloat _ _ _ _ _ _ _ I); auto. }
  split; auto. eapply (iv_own _ _ _ _ _ _ _ I); auto.
Qed.

Lemma push_one : forall alloc B h0 h root w frs t0 c, allocator alloc ->
  inv B h0 h root w frs t0 ->
  (forall n d q, hget h (top root (w_unchecked w)) = Some n -> In (d, q) (nedges n) -> (uchar d < uchar c)%N) ->
  let q := alloc h in
  inv B h0 (hset h q (Node false [])) root
    (Work (Trans c (top root (w_unchecked w)) q :: w_unchecked w) (w_minimized w) (set_insert q (w_floating w)))
    ((tfin t0, tedges t0, c) :: frs) leaf.
Proof.
  intros alloc B h0 h root w frs t0 c A I Lt q.
  destruct (A h) as [NN Fresh]. fold q in NN, Fresh.
  assert (Own : forall p, In p (root :: w_floating w) -> p <> q).
  { intros p J ->. destruct (iv_own _ _ _ _ _ _ _ I q J) as (_ & Al & _). unfold allocated in Al. congruence. }
  assert (E : forall p, p <> q -> hget (hset h q (Node false [])) p = hget h p).
  { intros. apply hget_hset_other; auto. }
  assert (Em : forall p, In p (mptrs (w_minimized w)) -> hget (hset h q (Node false [])) p = hget h p).
  { intros. apply E, Own. right. apply (iv_mfloat _ _ _ _ _ _ _ I); auto. }
  assert (Eo : forall p, In p (root :: targets (w_unchecked w)) -> hget (hset h q (Node false [])) p = hget h p).
  { intros p J. apply E. apply Own. eapply hget_null_top; eauto. }
  assert (Nq : ~ In q (root :: w_floating w)).
  { intros J. apply (Own _ J); auto. }
  destruct (unf_inv _ _ _ (iv_top _ _ _ _ _ _ _ I)) as (n & NNt & Gt & St & Ut & Ft).
  destruct (iv_edges _ _ _ _ _ _ _ I _ (top_In _ _)) as (n2 & G2 & _ & Et).
  rewrite Gt in G2. injection G2 as <-.
  constructor; cbn [w_unchecked w_minimized w_floating].
  - rewrite Ft. constructor.
    + rewrite Eo by apply top_In. auto.
    + eapply minv_unfs; eauto. apply I.
    + intros d r J. eapply Lt; eauto.
    + eapply frames_frame; eauto using iv_frames, iv_min.
      * intros tr J. apply Eo. pose proof (chain_sources _ _ _ _ (iv_frames _ _ _ _ _ _ _ I) _ J) as X.
        destruct (w_unchecked w); cbn in *; tauto.
      * intros tr n3 J G3.
        pose proof (chain_sources _ _ _ _ (iv_frames _ _ _ _ _ _ _ I) _ J) as X.
        assert (In (t_source tr) (root :: targets (w_unchecked w))) as Y by (destruct (w_unchecked w); cbn in *; tauto).
        destruct (iv_edges _ _ _ _ _ _ _ I _ Y) as (n4 & G4 & _ & Ed).
        assert (n4 = n3) by congruence. subst; auto.
  - cbn. eapply unf_intro; [auto|apply hget_hset_same|]. repeat split; cbn; constructor.
  - eapply minv_frame; eauto. apply I.
  - cbn. pose proof (iv_nodup _ _ _ _ _ _ _ I) as ND. inversion ND; subst.
    assert (~ In q (root :: targets (w_unchecked w))).
    { intros J. eapply Own; [eapply hget_null_top; eauto|]. auto. }
    cbn in H. constructor; [cbn; intros [X|X]; [apply H; auto|auto] | constructor; tauto].
  - intros p J K. cbn in J. destruct J as [->|[->|J]].
    + eapply (iv_disj _ _ _ _ _ _ _ I); eauto. left; auto.
    + apply Nq. right. apply (iv_mfloat _ _ _ _ _ _ _ I); auto.
    + eapply (iv_disj _ _ _ _ _ _ _ I); eauto. right; auto.
  - intros p J. cbn in J. destruct (N.eq_dec p q) as [->|Np].
    + exists (Node false []). split; [apply hget_hset_same|]. split; [constructor|]. intros ? ? [].
    + rewrite E by auto. apply (iv_edges _ _ _ _ _ _ _ I). cbn. intuition congruence.
  - pose proof (iv_float _ _ _ _ _ _ _ I) as ND. inversion ND; subst. constructor.
    + rewrite set_insert_In. intros [X|X]; [|auto]. apply Nq. left; auto.
    + apply set_insert_NoDup; auto.
  - intros p J. apply set_insert_In. right. apply (iv_mfloat _ _ _ _ _ _ _ I); auto.
  - intros p J. apply set_insert_In. cbn in J. destruct J as [->|J]; auto. right. apply (iv_tfloat _ _ _ _ _ _ _ I); auto.
  - intros p J. cbn in J. rewrite set_insert_In in J. rewrite E by tauto.
    apply (iv_base _ _ _ _ _ _ _ I). cbn. tauto.
  - intros p J. cbn in J. rewrite set_insert_In in J.
    destruct (N.eq_dec p q) as [->|Np].
    + split; auto. split; [unfold allocated; rewrite hget_hset_same; discriminate|].
      rewrite <- (iv_base _ _ _ _ _ _ _ I); auto.
    + unfold allocated. rewrite E by auto. apply (iv_own _ _ _ _ _ _ _ I). cbn. tauto.
Qed.

Lemma push_suffix_ok : forall alloc, allocator alloc ->
  forall rest B h0 h root w frs t0, inv B h0 h root w frs t0 ->
  (forall c rest', rest = c :: rest' ->
     forall n d q, hget h (top root (w_unchecked w)) = Some n -> In (d, q) (nedges n) -> (uchar d < uchar c)%N) ->
  exists h' w' frs' t0',
    push_suffix alloc h w (top root (w_unchecked w)) rest = (h', w', top root (w_unchecked w')) /\
    inv B h0 h' root w' frs' t0' /\
    fill frs' (T true (tedges t0')) = fill frs (tadd t0 rest) /\
    labels (w_unchecked w') = labels (w_unchecked w) ++ rest /\
    (rest = [] -> h' = h /\ w' = w /\ t0' = t0) /\
    (rest <> [] -> forall n, hget h' (top root (w_unchecked w')) = Some n -> nedges n = []).
Proof.
  intros alloc A. induction rest as [|c rest IH]; intros B h0 h root w frs t0 I Lt.
  - exists h, w, frs, t0. cbn. rewrite app_nil_r. split; [auto|]. split; [auto|].
    split; [auto|]. split; [auto|]. split; [auto|]. congruence.
  - cbn [push_suffix]. unfold new_node.
    pose proof (push_one alloc B h0 h root w frs t0 c A I (Lt c rest eq_refl)) as I1. cbv zeta in I1.
    set (q := alloc h) in *.
    set (w1 := Work (Trans c (top root (w_unchecked w)) q :: w_unchecked w) (w_minimized w) (set_insert q (w_floating w))) in *.
    destruct (IH B h0 (hset h q (Node false [])) root w1 ((tfin t0, tedges t0, c) :: frs) leaf I1)
      as (h' & w' & frs' & t0' & E & I' & Fl & La & D1 & D2).
    { intros c' rest' _ n d r G J. unfold w1 in G; cbn [top w_unchecked t_target] in G. rewrite hget_hset_same in G. injection G as <-. destruct J. }
    exists h', w', frs', t0'. split; [exact E|]. split; [auto|].
    split; [|split; [|split]].
    + rewrite Fl. cbn [fill tadd].
      replace (tget t0 c) with leaf; auto.
      unfold tget. destruct (unf_inv _ _ _ (iv_top _ _ _ _ _ _ _ I)) as (n & NNt & Gt & St & Ut & Ft).
      pose proof (unfs_get _ _ _ c Ut) as X. destruct (edge_get (nedges n) c) eqn:Ge.
      * apply edge_get_In in Ge. specialize (Lt c rest eq_refl n c p Gt Ge). lia.
      * rewrite X. auto.
    + rewrite La. unfold w1, labels. cbn. rewrite <- app_assoc. auto.
    + discriminate.
    + intros _ n G. destruct rest as [|c' rest'].
      * destruct (D1 eq_refl) as (-> & -> & _). unfold w1 in G; cbn [top w_unchecked t_target] in G. rewrite hget_hset_same in G. injection G as <-. auto.
      * apply D2; auto. discriminate.
Qed.

Lemma push_suffix_keeps : forall alloc, allocator alloc -> forall root rest h w source h' w' last,
  push_suffix alloc h w source rest = (h', w', last) -> (forall p, In p (mptrs (w_minimized w)) -> allocated h p) ->
  keeps root h w h' w'.
Proof.
  intros alloc A root. induction rest as [|c rest IH]; intros h w source h' w' last E Al.
  - injection E as <- <- <-. apply keeps_refl.
  - cbn [push_suffix] in E. unfold new_node in E. destruct (A h) as [_ Fr].
    assert (Eh : forall p, allocated h p -> hget (hset h (alloc h) (Node false [])) p = hget h p).
    { intros p Ap. apply hget_hset_other. intros ->. unfold allocated in Ap. congruence. }
    eapply keeps_trans; [|eapply IH; [exact E|]].
    + split.
      * intros p J. split; [exact J|]. apply Eh. auto.
      * intros n G. exists n. rewrite Eh by (unfold allocated; congruence). split; auto. split; auto. apply incl_refl.
    + cbn [w_minimized]. intros p J. unfold allocated. rewrite Eh by auto. apply Al, J.
Qed.

Lemma set_final_keeps : forall B h0 h root w frs t0 n, inv B h0 h root w frs t0 ->
  hget h (top root (w_unchecked w)) = Some n ->
  keeps root h w (hset h (top root (w_unchecked w)) (Node true (nedges n))) w.
Proof.
  intros B h0 h root w frs t0 n I G. split.
  - intros p J. split; auto. apply hget_hset_other. intros ->. eapply (iv_disj _ _ _ _ _ _ _ I); eauto. apply top_In.
  - intros n2 G2. destruct (N.eq_dec root (top root (w_unchecked w))) as [E|Nr].
    + rewrite <- E in *. rewrite G2 in G. injection G as <-. eexists. split; [apply hget_hset_same|].
      cbn. split; auto. apply incl_refl.
    + exists n2. rewrite hget_hset_other by auto. split; auto. split; auto. apply incl_refl.
Qed.

Lemma set_final_ok : forall B h0 h root w frs t0, inv B h0 h root w frs t0 ->
  exists n, hget h (top root (w_unchecked w)) = Some n /\
    let h' := hset h (top root (w_unchecked w)) (Node true (nedges n)) in
    set_final h (top root (w_unchecked w)) true = Ok h' /\
    inv B h0 h' root w frs (T true (tedges t0)).
Proof.
  intros B h0 h root w frs t0 I.
  destruct (unf_inv _ _ _ (iv_top _ _ _ _ _ _ _ I)) as (n & NN & G & S & U & F).
  exists n. split; auto. cbv zeta. set (p := top root (w_unchecked w)) in *. split.
  - unfold set_final. rewrite (read_ok _ _ _ NN G). auto.
  - assert (E : forall q, q <> p -> hget (hset h p (Node true (nedges n))) q = hget h q).
    { intros. apply hget_hset_other; auto. }
    assert (Em : forall q, In q (mptrs (w_minimized w)) -> hget (hset h p (Node true (nedges n))) q = hget h q).
    { intros q J. apply E. intros ->. eapply (iv_disj _ _ _ _ _ _ _ I); eauto. apply top_In. }
    destruct (iv_edges _ _ _ _ _ _ _ I p (top_In _ _)) as (n2 & G2 & _ & Et).
    rewrite G in G2. injection G2 as <-.
    constructor; try apply I.
    + eapply frames_frame_top; eauto.
    + eapply unf_intro; [auto | apply hget_hset_same |]. split; [|split]; cbn; auto.
      eapply minv_unfs with (m := w_minimized w); eauto. apply I.
    + eapply minv_frame; eauto. apply I.
    + intros q J. destruct (N.eq_dec q p) as [->|Nq].
      * exists (Node true (nedges n)). split; [apply hget_hset_same|]. cbn. auto.
      * rewrite E by auto. apply (iv_edges _ _ _ _ _ _ _ I); auto.
    + intros q J. rewrite E; [apply (iv_base _ _ _ _ _ _ _ I); auto|].
      intros ->. apply J. eapply hget_null_top; eauto. apply top_In.
    + intros q J. destruct (iv_own _ _ _ _ _ _ _ I q J) as (? & Al & ?). split; auto. split; auto.
      unfold allocated in *. rewrite hget_hset. destruct (N.eqb q p); [discriminate|auto].
Qed.

(** ** add *)
Lemma str_ltb_lex : forall u v, str_ltb u v = true <-> lex_lt u v.
Proof.
  unfold str_ltb. induction u as [|a u IH]; intros [|b v]; cbn.
  - split; [discriminate|]. intros H; inversion H.
  - split; auto. constructor.
  - split; [discriminate|]. intros H; inversion H.
  - destruct (N.compare (uchar a) (uchar b)) eqn:C.
    + apply N.compare_eq in C. apply uchar_inj in C. subst b. rewrite IH.
      split; intros H; [apply lex_tail; auto|]. inversion H; subst; auto. lia.
    + split; auto. intros _. apply lex_head. exact C.
    + split; [discriminate|]. intros H. inversion H; subst.
      * rewrite N.compare_gt_iff in C. lia.
      * rewrite N.compare_refl in C. discriminate.
Qed.

Lemma common_prefix_spec : forall u v, ~ lex_lt u v ->
  let i := common_prefix u v in
  i <= length u /\ i <= length v /\ firstn i u = firstn i v /\
  (i = length v \/
   exists a b u' v', skipn i u = a :: u' /\ nth_error v i = Some b /\ skipn i v = b :: v' /\ (uchar b < uchar a)%N).
Proof.
  induction u as [|a u IH]; intros [|b v] H; cbn.
  - repeat split; auto.
  - exfalso. apply H. constructor.
  - repeat split; auto; lia.
  - destruct (ceqb_spec a b) as [[-> E]|[N E]]; rewrite E.
    + destruct (IH v) as (L1 & L2 & Fe & D).
      { intros X. apply H. apply lex_tail; auto. }
      cbn. split; [lia|]. split; [lia|]. split; [congruence|]. destruct D as [D|D]; [left; lia|right; auto].
    + cbn. split; [lia|]. split; [lia|]. split; [auto|]. right.
      exists a, b, u, v. repeat split; auto.
      assert (uchar a <> uchar b) by (intros X; apply N, uchar_inj; auto).
      assert (~ (uchar a < uchar b)%N) by (intros X; apply H; apply lex_head; auto). lia.
Qed.

Record binv (B : nat) (h0 h : heap) (b : builder) (t : tree) (w : work) (frs : list frame) (t0 : tree) : Prop := {
  bi_work : b_work b = Some w;
  bi_inv : inv B h0 h (d_root (b_dawg b)) w frs t0;
  bi_tree : fill frs t0 = t;
  bi_height : height t <= B;
  bi_prev : labels (w_unchecked w) = b_prev b;
  bi_top : forall n, hget h (top (d_root (b_dawg b)) (w_unchecked w)) = Some n -> nedges n = [];
}.

Lemma skipn_rev_nth : forall (l : list trans) k tr, nth_error l k = Some tr ->
  nth_error (rev l) (length l - S k) = Some tr.
Proof.
  induction l as [|x l IH]; intros [|k] tr H; cbn in *; try discriminate.
  - injection H as ->. rewrite nth_error_app2; rewrite rev_length; [|lia].
    replace (length l - 0 - length l) with 0 by lia. auto.
  - rewrite nth_error_app1.
    + apply IH; auto.
    + rewrite rev_length. assert (k < length l) by (apply nth_error_Some; congruence). lia.
Qed.

Lemma labels_length : forall un, length (labels un) = length un.
Proof. intros. unfold labels. rewrite rev_length, map_length. auto. Qed.

Lemma labels_skipn : forall un k, k <= length un ->
  labels (skipn k un) = firstn (length un - k) (labels un).
Proof.
  intros. unfold labels. rewrite skipn_map || rewrite <- skipn_map.
  rewrite firstn_rev. rewrite map_length. replace (length un - (length un - k)) with k by lia.
  rewrite skipn_map. auto.
Qed.

Lemma labels_nth : forall un k tr, nth_error un k = Some tr ->
  nth_error (labels un) (length un - S k) = Some (t_label tr).
Proof.
  intros. unfold labels. rewrite <- map_rev. apply map_nth_error.
  apply skipn_rev_nth; auto.
Qed.

Lemma add_nonempty : forall fuel alloc h b term, str_ltb term (b_prev b) = false -> term <> [] ->
  add fuel alloc h b term =
    (do w <- deref (b_work b);
     do (h1, w1) <- minimize fuel h w (common_prefix term (b_prev b));
     let '(h2, w2, last) := push_suffix alloc h1 w1 (top (d_root (b_dawg b)) (w_unchecked w1))
                              (skipn (common_prefix term (b_prev b)) term) in
     do h3 <- set_final h2 last true;
     Ok (true, h3, Builder (Dawg (d_root (b_dawg b)) (wadd (d_size (b_dawg b)) 1)) term (Some w2))).
Proof. intros. unfold add. rewrite H. destruct term; [congruence|]. reflexivity. Qed.

Lemma add_empty : forall fuel alloc h b, str_ltb [] (b_prev b) = false ->
  add fuel alloc h b [] =
    (do h1 <- set_final h (d_root (b_dawg b)) true;
     Ok (true, h1, Builder (Dawg (d_root (b_dawg b)) (wadd (d_size (b_dawg b)) 1)) [] (b_work b))).
Proof. intros. unfold add. rewrite H. reflexivity. Qed.

Lemma add_keeps : forall alloc B h0 h b t w frs t0 term, allocator alloc ->
  binv B h0 h b t w frs t0 -> length term < B -> ~ lex_lt term (b_prev b) ->
  exists h' b' w' frs' t0',
    (forall fuel, B <= fuel -> add fuel alloc h b term = Ok (true, h', b')) /\
    binv B h0 h' b' (tadd t term) w' frs' t0' /\
    b_prev b' = term /\ d_root (b_dawg b') = d_root (b_dawg b) /\
    d_size (b_dawg b') = wadd (d_size (b_dawg b)) 1 /\
    keeps (d_root (b_dawg b)) h w h' w'.
Proof.
  intros alloc B h0 h b t w frs t0 term A BI Lt NL.
  destruct BI as [Hw I Ht Hh Hp Hn].
  set (root := d_root (b_dawg b)) in *.
  set (i := common_prefix term (b_prev b)).
  destruct (common_prefix_spec term (b_prev b) NL) as (L1 & L2 & Fe & D). fold i in L1, L2, Fe, D.
  assert (Lun : length (w_unchecked w) = length (b_prev b)).
  { rewrite <- Hp. rewrite labels_length. auto. }
  destruct (minimize_loop_keeps (length (w_unchecked w) - i) B h0 h root w frs t0 I)
    as (h1 & w1 & frs1 & t1 & E1 & I1 & F1 & U1 & D1 & K1); [rewrite Ht; auto | lia |].
  assert (La1 : labels (w_unchecked w1) = firstn i term).
  { rewrite U1, labels_skipn by lia. rewrite Hp, Fe. f_equal. lia. }
  destruct (push_suffix_ok alloc A (skipn i term) B h0 h1 root w1 frs1 t1 I1)
    as (h2 & w2 & frs2 & t2 & E2 & I2 & F2 & La2 & N1 & N2).
  { intros c rest' Er n d q G J.
    destruct (length (w_unchecked w) - i) as [|k] eqn:Ek.
    - destruct D1 as [-> ->]. apply Hn in G. rewrite G in J. destruct J.
    - destruct D1 as (tr & n' & Nth & G' & Le).
      rewrite G in G'. injection G' as <-. specialize (Le _ _ J).
      destruct D as [D|(a & b0 & u' & v' & Sk & Nb & _ & Lab)]; [lia|].
      apply labels_nth in Nth. rewrite Hp in Nth.
      replace (length (w_unchecked w) - S k) with i in Nth by lia.
      rewrite Nb in Nth. injection Nth as ->. rewrite Sk in Er. injection Er as -> _. lia. }
  destruct (set_final_ok B h0 h2 root w2 frs2 t2 I2) as (nt & Gt & E3 & I3). cbv zeta in E3, I3.
  assert (Tr : fill frs2 (T true (tedges t2)) = tadd t term).
  { rewrite F2. rewrite <- Ht, <- F1.
    rewrite <- tadd_fill. rewrite (frames_labels _ _ _ _ (iv_frames _ _ _ _ _ _ _ I1)), La1.
    rewrite firstn_skipn. auto. }
  assert (Lab2 : labels (w_unchecked w2) = term).
  { rewrite La2, La1. apply firstn_skipn. }
  assert (K3 : keeps root h w (hset h2 (top root (w_unchecked w2)) (Node true (nedges nt))) w2).
  { eapply keeps_trans; [exact K1|]. eapply keeps_trans; [|eapply set_final_keeps; eauto].
    eapply push_suffix_keeps; [exact A|exact E2|].
    intros p J. apply (iv_own _ _ _ _ _ _ _ I1). right. apply (iv_mfloat _ _ _ _ _ _ _ I1); auto. }
  exists (hset h2 (top root (w_unchecked w2)) (Node true (nedges nt))),
    (Builder (Dawg root (wadd (d_size (b_dawg b)) 1)) term (Some w2)), w2, frs2, (T true (tedges t2)).
  split; [|split; [|auto]].
  - intros fuel Hf.
    assert (Es : str_ltb term (b_prev b) = false).
    { destruct (str_ltb term (b_prev b)) eqn:Es; [apply str_ltb_lex in Es; tauto|auto]. }
    assert (term = [] \/ term <> []) as [Eterm|Eterm] by (destruct term; [auto|right; discriminate]).
    + (* the empty term: nothing has been added yet except empty terms *)
      assert (i = 0) as Hi0 by (unfold i; rewrite Eterm; auto).
      assert (b_prev b = []) as Hpe.
      { destruct D as [D|(a & b0 & u' & v' & Sk & _)]; [|rewrite Eterm in Sk; destruct i; discriminate].
        rewrite Hi0 in D. destruct (b_prev b); [auto|discriminate]. }
      assert (w_unchecked w = []) as Hun by (destruct (w_unchecked w); auto; rewrite Hpe in Lun; discriminate).
      replace (length (w_unchecked w) - i) with 0 in D1 by (rewrite Hun; auto).
      destruct D1 as [Eh1 Ew1]. subst h1 w1.
      rewrite Hi0, Eterm in N1. destruct (N1 eq_refl) as (Eh2 & Ew2 & _). subst h2 w2.
      rewrite Hun in *. cbn [top] in *. rewrite Eterm in *. rewrite add_empty by auto.
      fold root. rewrite E3. cbn. rewrite Hw. auto.
    + rewrite add_nonempty by auto. rewrite Hw. cbn [deref rbind]. fold i.
      unfold minimize. rewrite E1 by auto. cbn [rbind]. fold root.
      rewrite E2. cbn [rbind]. rewrite E3. auto.
  - constructor; cbn [b_work b_dawg d_root b_prev]; auto.
    + rewrite <- Tr. rewrite Tr. apply height_tadd; auto.
    + intros n G. rewrite hget_hset_same in G. injection G as <-. cbn.
      destruct (skipn i term) as [|c r] eqn:Esk.
      * destruct (N1 eq_refl) as (-> & -> & _).
        destruct (length (w_unchecked w) - i) as [|k] eqn:Ek.
        -- destruct D1 as [-> ->]. apply Hn; auto.
        -- (* a proper prefix of the previous term would be smaller *)
           exfalso. destruct D as [D|(a & b0 & u' & v' & Sk & _)]; [lia|congruence].
      * apply N2; auto. discriminate.
Qed.

Lemma add_ok : forall alloc B h0 h b t w frs t0 term, allocator alloc ->
  binv B h0 h b t w frs t0 -> length term < B -> ~ lex_lt term (b_prev b) ->
  exists h' b' w' frs' t0',
    (forall fuel, B <= fuel -> add fuel alloc h b term = Ok (true, h', b')) /\
    binv B h0 h' b' (tadd t term) w' frs' t0' /\
    b_prev b' = term /\ d_root (b_dawg b') = d_root (b_dawg b) /\
    d_size (b_dawg b') = wadd (d_size (b_dawg b)) 1.
Proof.
  intros alloc B h0 h b t w frs t0 term A BI Lt NL.
  destruct (add_keeps alloc B h0 h b t w frs t0 term A BI Lt NL) as (h' & b' & w' & frs' & t0' & X1 & X2 & X3 & X4 & X5 & _).
  exists h', b', w', frs', t0'. auto.
Qed.

Lemma add_reject : forall fuel alloc h b term, lex_lt term (b_prev b) ->
  add fuel alloc h b term = Ok (false, h, b).
Proof. intros. unfold add. apply str_ltb_lex in H. rewrite H. auto. Qed.

Lemma lex_lt_dec : forall u v, {lex_lt u v} + {~ lex_lt u v}.
Proof.
  intros. destruct (str_ltb u v) eqn:E.
  - left. apply str_ltb_lex; auto.
  - right. intros H. apply str_ltb_lex in H. congruence.
Qed.

(** ** The fresh builder *)
Lemma new_sorted_dawg_ok : forall alloc B h0, allocator alloc -> 1 <= B ->
  forall h b, new_sorted_dawg alloc h0 = (h, b) ->
  binv B h0 h (init b) leaf (Work [] [] []) [] leaf /\ b_prev (init b) = [] /\ d_size (b_dawg (init b)) = 0%N.
Proof.
  intros alloc B h0 A HB h b E. unfold new_sorted_dawg, new_node in E. injection E as <- <-.
  destruct (A h0) as [NN Fr]. split; [|auto]. constructor; cbn; auto.
  - constructor; cbn.
    + constructor.
    + eapply unf_intro; [auto|apply hget_hset_same|]. repeat split; cbn; constructor.
    + constructor.
      * intros e [].
      * intros p n c q [].
      * intros e1 e2 t [].
    + repeat constructor; auto.
    + auto.
    + intros p [<-|[]]. exists (Node false []). split; [apply hget_hset_same|]. split; [constructor|]. intros ? ? [].
    + repeat constructor; auto.
    + intros ? [].
    + intros ? [].
    + intros p J. apply hget_hset_other. intros ->. auto.
    + intros p [<-|[]]. split; auto. split; auto. unfold allocated. rewrite hget_hset_same. discriminate.
  - intros n G. rewrite hget_hset_same in G. injection G as <-. auto.
Qed.

(** ** finish *)
Lemma finish_keeps : forall B h0 h b t w frs t0, binv B h0 h b t w frs t0 ->
  exists h' w', (forall fuel, B <= fuel -> finish fuel h b = Ok (h', Builder (b_dawg b) (b_prev b) (Some w'))) /\
    inv B h0 h' (d_root (b_dawg b)) w' [] t /\ w_unchecked w' = [] /\
    keeps (d_root (b_dawg b)) h w h' w'.
Proof.
  intros B h0 h b t w frs t0 [Hw I Ht Hh Hp Hn].
  destruct (minimize_loop_keeps (length (w_unchecked w) - 0) B h0 h _ w frs t0 I)
    as (h1 & w1 & frs1 & t1 & E1 & I1 & F1 & U1 & D1 & K1); [rewrite Ht; auto | lia |].
  assert (w_unchecked w1 = []) as U2.
  { rewrite U1. replace (length (w_unchecked w) - 0) with (length (w_unchecked w)) by lia. apply skipn_all. }
  pose proof (iv_frames _ _ _ _ _ _ _ I1) as F. rewrite U2 in F. inversion F; subst. cbn in *.
  exists h1, w1. split; [|split; auto].
  - intros fuel Hf. unfold finish. rewrite Hw. cbn. unfold minimize. rewrite E1 by auto. auto.
  - rewrite <- F1. auto.
Qed.

Lemma finish_ok : forall B h0 h b t w frs t0, binv B h0 h b t w frs t0 ->
  exists h' w', (forall fuel, B <= fuel -> finish fuel h b = Ok (h', Builder (b_dawg b) (b_prev b) (Some w'))) /\
    inv B h0 h' (d_root (b_dawg b)) w' [] t /\ w_unchecked w' = [].
Proof.
  intros B h0 h b t w frs t0 BI. destruct (finish_keeps B h0 h b t w frs t0 BI) as (h' & w' & X1 & X2 & X3 & _).
  exists h', w'. auto.
Qed.

(** ** clean_up and destruction *)
Lemma inv_unf : forall B h0 h root w frs t0 p, inv B h0 h root w frs t0 ->
  In p (root :: targets (w_unchecked w)) -> exists t, unf h p t.
Proof.
  intros B h0 h root w frs t0 p I J.
  destruct (iv_edges _ _ _ _ _ _ _ I p J) as (n & G & S & Ed).
  destruct (minv_unfs_ex B h (w_minimized w) (nedges n) (iv_min _ _ _ _ _ _ _ I) Ed) as (ts & U).
  exists (T (nfin n) ts). eapply unf_intro; eauto.
  - eapply hget_null_top; eauto.
  - repeat split; auto.
Qed.

Lemma inv_reach : forall B h0 h root w frs t0 p, inv B h0 h root w frs t0 ->
  reach h root p -> p = root \/ In p (mptrs (w_minimized w)).
Proof.
  intros B h0 h root w frs t0 p I R.
  eapply closed_reach with (P := fun p => p = root \/ In p (mptrs (w_minimized w))); eauto.
  intros q n c r [->|J] G K.
  - right. destruct (iv_edges _ _ _ _ _ _ _ I root (or_introl eq_refl)) as (n2 & G2 & _ & Ed).
    assert (n2 = n) by congruence. subst. eauto.
  - right. eapply mi_closed; eauto. apply I.
Qed.

Lemma all_nodes_loop_mono : forall fuel fuel' h ps nodes out, all_nodes_loop fuel h ps nodes = Ok out ->
  fuel <= fuel' -> all_nodes_loop fuel' h ps nodes = Ok out.
Proof.
  induction fuel as [|fuel IH]; intros [|fuel'] h ps nodes out E L; cbn in *; try discriminate; try lia.
  destruct ps as [|p ps]; auto. destruct (read h p); cbn in *; try discriminate.
  apply IH; auto. lia.
Qed.

Lemma all_nodes_all : forall h d t, unf h (d_root d) t ->
  exists out, (forall fuel, tsize t + 2 <= fuel -> all_nodes fuel h d = Ok out) /\ NoDup out /\
    forall p, In p out <-> reach h (d_root d) p.
Proof.
  intros h d t U. destruct (all_nodes_ok (tsize t + 2) h d t U) as (out & E & ND & I); [lia|].
  exists out. split; auto. intros fuel L. eapply all_nodes_loop_mono; eauto.
Qed.

Lemma destroy_dawg_all : forall h d t, unf h (d_root d) t ->
  exists h', (forall fuel, tsize t + 2 <= fuel -> destroy_dawg fuel h d = Ok h') /\
    (forall p, reach h (d_root d) p -> hget h' p = None) /\
    (forall p, ~ reach h (d_root d) p -> hget h' p = hget h p).
Proof.
  intros h d t U.
  destruct (all_nodes_all h d t U) as (out & E & ND & I).
  destruct (delete_all_ok out h ND) as (h' & E' & D1 & D2).
  - intros p J. apply I in J. destruct (unf_reach_alloc _ _ _ _ U J) as (? & n & G).
    split; auto. unfold allocated. congruence.
  - exists h'. split; [|split].
    + intros fuel L. unfold destroy_dawg. rewrite E by auto. auto.
    + intros; apply D1, I; auto.
    + intros; apply D2; rewrite I; auto.
Qed.

Lemma clean_up_ok : forall B h0 h b w frs t0, b_work b = Some w ->
  inv B h0 h (d_root (b_dawg b)) w frs t0 ->
  exists enough h',
    (forall fuel, enough <= fuel -> clean_up fuel h b = Ok (h', Builder (b_dawg b) (b_prev b) None)) /\
    (forall p, reach h (d_root (b_dawg b)) p -> hget h' p = hget h p /\ hget h0 p = None) /\
    (forall p, ~ reach h (d_root (b_dawg b)) p -> hget h' p = hget h0 p).
Proof.
  intros B h0 h b w frs t0 Hw I.
  set (root := d_root (b_dawg b)) in *.
  destruct (inv_unf _ _ _ _ _ _ _ root I (or_introl eq_refl)) as (tr & U).
  assert (G : forall p, reach h root p -> In p (root :: w_floating w)).
  { intros p R. destruct (inv_reach _ _ _ _ _ _ _ _ I R) as [->|J]; [left; auto|].
    right. apply (iv_mfloat _ _ _ _ _ _ _ I); auto. }
  destruct (all_nodes_all h (b_dawg b) tr U) as (nodes & E & ND & In0).
  fold root in In0.
  set (fl' := filter (fun p => negb (set_mem p nodes)) (w_floating w)).
  assert (If : forall p, In p fl' <-> In p (w_floating w) /\ ~ reach h root p).
  { intros p. unfold fl'. rewrite filter_In, <- In0. rewrite negb_true_iff, <- not_true_iff_false, set_mem_In. tauto. }
  destruct (delete_all_ok fl' h) as (h' & Ed & D1 & D2).
  - apply NoDup_filter.
    pose proof (iv_float _ _ _ _ _ _ _ I) as ND'. inversion ND'; auto.
  - intros p J. apply If in J. destruct J as [J _].
    destruct (iv_own _ _ _ _ _ _ _ I p (or_intror J)) as (? & ? & _). auto.
  - exists (tsize tr + 2), h'. split; [|split].
    + intros fuel Hf. unfold clean_up. rewrite Hw, E by auto. cbn. fold fl'. rewrite Ed. auto.
    + intros p R. split.
      * apply D2. rewrite If. tauto.
      * apply (iv_own _ _ _ _ _ _ _ I p). auto.
    + intros p NR. destruct (in_dec N.eq_dec p (w_floating w)) as [J|J].
      * rewrite D1 by (apply If; auto). symmetry. apply (iv_own _ _ _ _ _ _ _ I p (or_intror J)).
      * rewrite D2 by (rewrite If; tauto).
        apply (iv_base _ _ _ _ _ _ _ I). intros [X|X]; [|auto]. apply NR. rewrite <- X. apply reach_refl.
Qed.

Lemma destroy_ok : forall B h0 h b w frs t0, b_work b = Some w ->
  inv B h0 h (d_root (b_dawg b)) w frs t0 ->
  exists enough h', (forall fuel, enough <= fuel -> destroy fuel h b = Ok h') /\ same_heap h' h0.
Proof.
  intros B h0 h b w frs t0 Hw I.
  destruct (clean_up_ok B h0 h b w frs t0 Hw I) as (en1 & h1 & E1 & R1 & R2).
  destruct (inv_unf _ _ _ _ _ _ _ _ I (or_introl eq_refl)) as (tr & U).
  assert (U1 : unf h1 (d_root (b_dawg b)) tr).
  { eapply unf_frame with (P := reach h (d_root (b_dawg b))); eauto using reach_closed, reach_refl.
    intros. apply R1; auto. }
  assert (Re : forall p, reach h1 (d_root (b_dawg b)) p <-> reach h (d_root (b_dawg b)) p).
  { intros p. apply reach_frame. intros. apply R1; auto. }
  destruct (destroy_dawg_all h1 (b_dawg b) tr U1) as (h2 & E2 & D1 & D2).
  exists (Nat.max en1 (tsize tr + 2)), h2. split.
  - intros fuel L. unfold destroy. rewrite E1 by lia. cbn. apply E2. lia.
  - intros p. destruct (all_nodes_all h (b_dawg b) tr U) as (nodes & _ & _ & In0).
    destruct (in_dec N.eq_dec p nodes) as [J|J].
    + apply In0 in J. rewrite D1 by (apply Re; auto). symmetry. apply R1; auto.
    + rewrite In0 in J. rewrite D2 by (rewrite Re; auto). apply R2; auto.
Qed.
