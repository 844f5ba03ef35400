(** * HandProofs: nodes that a caller makes and links by hand. *)
From Coq Require Import Sorting.Sorted.
From Verif Require Import Base Spec ModelDawg ModelHand SpecDawg SpecHand TreeProofs HeapProofs.
Local Open Scope nat_scope.

(** ** Histories *)
Lemma made_snoc hist o : made (hist ++ [o]) = made hist ++ match o with Make b => [b] | _ => [] end.
Proof. unfold made. rewrite flat_map_app. cbn. now rewrite app_nil_r. Qed.

Lemma marked_snoc hist o x : marked (hist ++ [o]) x = match o with Mark z b => if z =? x then Some b else marked hist x | _ => marked hist x end.
Proof. unfold marked. rewrite fold_left_app. cbn. now destruct o. Qed.

Lemma target_snoc hist o x c :
  target (hist ++ [o]) x c = match o with Link z d y => if (z =? x) && ceqb d c then Some y else target hist x c | _ => target hist x c end.
Proof. unfold target. rewrite fold_left_app. cbn. now destruct o. Qed.

Lemma target_In : forall hist x c y, target hist x c = Some y -> In (Link x c y) hist.
Proof.
  intros hist. induction hist as [|o hist IH] using rev_ind; intros x c y E; [discriminate|]. rewrite target_snoc in E. apply in_or_app.
  destruct o as [b|z b|z d y']; [left; auto|left; auto|]. destruct ((z =? x) && ceqb d c) eqn:Q; [|left; auto].
  apply andb_true_iff in Q. destruct Q as (Q1 & Q2). apply Nat.eqb_eq in Q1. apply ceqb_true in Q2. subst. injection E as ->. right. now left.
Qed.

Lemma replaced_snoc : forall hist o z, replaced (hist ++ [o]) z <->
  replaced hist z \/ exists x c y, o = Link x c y /\ target hist x c = Some z.
Proof.
  intros hist o z. split.
  - intros (a & x & c & y2 & d & E & T'). destruct d as [|w d _] using rev_ind.
    + right. exists x, c, y2. apply app_inj_tail in E. destruct E as (-> & ->). auto.
    + left. exists a, x, c, y2, d. assert (E' : hist ++ [o] = (a ++ Link x c y2 :: d) ++ [w]) by (rewrite E, <- app_assoc; reflexivity).
      apply app_inj_tail in E'. destruct E' as (-> & _). auto.
  - intros [(a & x & c & y2 & d & -> & T')|(x & c & y & -> & J)].
    + exists a, x, c, y2, (d ++ [o]). rewrite <- app_assoc. auto.
    + exists hist, x, c, y, []. auto.
Qed.

Lemma orderly_prefix : forall h1 h2, orderly (h1 ++ h2) -> orderly h1.
Proof. intros h1 h2 O a o b ->. apply (O a o (b ++ h2)). now rewrite <- app_assoc. Qed.

(** What a node is linked to exists as long as the node. *)
Lemma target_kept : forall hist, orderly hist -> forall x c y, exists_still hist x -> target hist x c = Some y -> exists_still hist y.
Proof.
  intros hist. induction hist as [|o hist IH] using rev_ind; intros O x c y E T'; [discriminate|].
  pose proof (O hist o [] eq_refl) as L. apply orderly_prefix in O. specialize (IH O). rewrite target_snoc in T'.
  unfold exists_still in *. rewrite replaced_snoc, made_snoc in E |- *. destruct E as (E1 & E2).
  assert (Mono : forall z, z < length (made hist) -> z < length (made hist ++ match o with Make b => [b] | _ => [] end)) by (intros z; rewrite app_length; lia).
  assert (Xin : In (Link x c y) hist -> x < length (made hist)).
  { intros J. apply in_split in J. destruct J as (a & b & ->). destruct (O a _ b eq_refl) as ((L1 & _) & _). unfold made in *. rewrite flat_map_app, app_length. lia. }
  destruct o as [b|z b|z d y'].
  - destruct (IH x c y) as (I1 & I2); [split; [apply Xin; now apply target_In|tauto]|exact T'|]. split; [auto|]. intros [R|(? & ? & ? & Q & _)]; [tauto|discriminate].
  - destruct (IH x c y) as (I1 & I2); [split; [apply Xin; now apply target_In|tauto]|exact T'|]. split; [auto|]. intros [R|(? & ? & ? & Q & _)]; [tauto|discriminate].
  - rewrite app_nil_r in *. destruct L as (Lx & Ly & Lo). destruct ((z =? x) && ceqb d c) eqn:Q.
    + injection T' as <-. split; [apply Ly|]. intros [R|(x0 & c0 & y0 & E & T0)]; [tauto|]. injection E as <- <- <-. destruct (Lo _ T0) as (_ & N & _). congruence.
    + destruct (IH x c y) as (I1 & I2); [split; [exact E1|tauto]|exact T'|]. split; [exact I1|]. intros [R|(x0 & c0 & y0 & E & T0)]; [tauto|]. injection E as <- <- <-.
      destruct (Lo _ T0) as (_ & _ & N). destruct (N x c) as (-> & ->); [split; [exact E1|tauto]|exact T'|]. now rewrite Nat.eqb_refl, ceqb_refl in Q.
Qed.

Lemma finality_made : forall hist x, orderly hist -> x < length (made hist) -> exists b, finality hist x = Some b.
Proof.
  intros hist x O L. unfold finality. destruct (marked hist x); [eauto|]. destruct (nth_error (made hist) x) eqn:E; [eauto|]. apply nth_error_None in E. lia.
Qed.

(** ** The invariant *)
Record stands (h0 : heap) (hist : list node_call) (h : heap) (ps : list ptr) : Prop := {
  st_len : length ps = length (made hist);
  st_node : forall x, exists_still hist x -> exists p n, nth_error ps x = Some p /\ p <> null /\ hget h0 p = None /\ hget h p = Some n /\
    finality hist x = Some (nfin n) /\ esorted (nedges n) /\
    forall c, match target hist x c with
              | None => edge_get (nedges n) c = None
              | Some y => exists q, nth_error ps y = Some q /\ edge_get (nedges n) c = Some q
              end;
  st_inj : forall x y p, exists_still hist x -> exists_still hist y -> nth_error ps x = Some p -> nth_error ps y = Some p -> x = y;
  st_others : forall p, (forall x, exists_still hist x -> nth_error ps x <> Some p) -> hget h p = hget h0 p;
}.

Lemma stands_nil h0 : stands h0 [] h0 [].
Proof. constructor; [reflexivity| | |]; try (intros; reflexivity); intros x; intros; unfold exists_still in *; cbn in *; lia. Qed.

Lemma nth_error_snoc {A} (l : list A) a i : nth_error (l ++ [a]) i = if i =? length l then Some a else nth_error l i.
Proof.
  destruct (Nat.eqb_spec i (length l)) as [->|N]; [now rewrite nth_error_app2, Nat.sub_diag by lia|].
  destruct (Nat.lt_ge_cases i (length l)); [now rewrite nth_error_app1 by lia|].
  rewrite nth_error_app2 by lia. rewrite (proj2 (nth_error_None l i)) by lia. apply nth_error_None. cbn. lia.
Qed.

Lemma finality_old : forall hist o x, x < length (made hist) -> (forall b, o <> Mark x b) -> finality (hist ++ [o]) x = finality hist x.
Proof.
  intros hist o x L N. unfold finality. rewrite marked_snoc, made_snoc.
  assert (E : nth_error (made hist ++ match o with Make b => [b] | _ => [] end) x = nth_error (made hist) x) by (apply nth_error_app1; exact L).
  rewrite E. destruct o as [b|z b|z d y]; auto. destruct (Nat.eqb_spec z x) as [->|]; [destruct (N b eq_refl)|reflexivity].
Qed.

Lemma perform_ok : forall alloc h0 hist h ps o, allocator alloc -> orderly (hist ++ [o]) -> stands h0 hist h ps ->
  exists h' ps', perform alloc h ps o = Ok (h', ps') /\ stands h0 (hist ++ [o]) h' ps'.
Proof.
  intros alloc h0 hist h ps o A O St. pose proof (O hist o [] eq_refl) as L. pose proof (orderly_prefix _ _ O) as Oh. destruct St as [Ln Nd Ij Ot].
  destruct o as [b|x b|x c y].
  - (* Make *)
    destruct (A h) as (NN & Fr). set (p := alloc h) in *. exists (hset h p (Node b [])), (ps ++ [p]). split; [reflexivity|].
    assert (Ex : forall x, exists_still (hist ++ [Make b]) x <-> exists_still hist x \/ x = length ps).
    { intros x. unfold exists_still. rewrite replaced_snoc, made_snoc, app_length, <- Ln. cbn [length]. split.
      - intros (L1 & R). destruct (Nat.eq_dec x (length ps)); [auto|left]. split; [lia|tauto].
      - intros [(L1 & R)| ->]; (split; [lia|]); intros [R'|(? & ? & ? & E & _)]; try discriminate; try contradiction.
        destruct R' as (a & z & d & y2 & e & -> & T'). apply target_In in T'. apply in_split in T'. destruct T' as (a1 & a2 & ->).
        rewrite <- app_assoc in *. destruct (Oh a1 (Link z d (length ps)) _ eq_refl) as (_ & (L2 & _) & _).
        rewrite Ln in L2. unfold made in L2. rewrite flat_map_app, app_length in L2. lia. }
    assert (Np : forall x, exists_still hist x -> nth_error ps x <> Some p).
    { intros x E Q. destruct (Nd x E) as (p' & n & E1 & _ & _ & E2 & _). rewrite Q in E1. injection E1 as <-. congruence. }
    assert (P0 : hget h0 p = None) by (rewrite <- Ot by exact Np; exact Fr).
    assert (Old : forall x, exists_still hist x -> x < length ps) by (intros x (E & _); lia).
    constructor.
    + rewrite made_snoc, !app_length. cbn. lia.
    + intros x E. apply Ex in E. rewrite nth_error_snoc. destruct E as [E| ->].
      * pose proof (Old x E) as Lx. destruct (Nat.eqb_spec x (length ps)) as [Q|_]; [lia|].
        destruct (Nd x E) as (q & n & E1 & E2 & E3 & E4 & E5 & E6 & E7). exists q, n. split; [exact E1|]. split; [exact E2|]. split; [exact E3|].
        split; [rewrite hget_hset_other; [exact E4|intros ->; exact (Np x E E1)]|]. split; [rewrite finality_old; [exact E5|lia|discriminate]|]. split; [exact E6|].
        intros c. rewrite target_snoc. specialize (E7 c). destruct (target hist x c) as [y|] eqn:Et; [|exact E7].
        destruct E7 as (r & E7 & E8). exists r. split; [|exact E8]. rewrite nth_error_app1; [exact E7|]. apply nth_error_Some. congruence.
      * rewrite Nat.eqb_refl. exists p, (Node b []). split; [reflexivity|]. split; [exact NN|]. split; [exact P0|]. split; [apply hget_hset_same|].
        assert (NL : forall o, In o hist -> match o with Make _ => True | Mark x _ => x < length ps | Link x _ _ => x < length ps end).
        { intros o J. apply in_split in J. destruct J as (a & e & ->). pose proof (Oh a o e eq_refl) as X. rewrite Ln. unfold made in *.
          rewrite flat_map_app, app_length. destruct o; auto; unfold exists_still, made in X; lia. }
        split; [|split; [constructor|]].
        -- unfold finality. rewrite marked_snoc, made_snoc, Ln, nth_error_app2, Nat.sub_diag by lia. cbn [nth_error nfin].
           assert (marked hist (length (made hist)) = None) as ->; [|reflexivity]. rewrite <- Ln. clear -NL. unfold marked.
           assert (G : forall l, (forall o, In o l -> In o hist) -> fold_left (fun last o => match o with Mark z b => if z =? length ps then Some b else last | _ => last end) l None = None).
           { induction l as [|o l IH]; intros Sub; [reflexivity|]. cbn [fold_left]. pose proof (NL o (Sub o (or_introl eq_refl))) as X.
             destruct o as [b0|z b0|z d y]; try (apply IH; intros; apply Sub; now right).
             destruct (Nat.eqb_spec z (length ps)); [lia|]. apply IH; intros; apply Sub; now right. }
           apply G. auto.
        -- intros c. rewrite target_snoc. destruct (target hist (length ps) c) as [y|] eqn:Et; [|reflexivity].
           apply target_In in Et. apply NL in Et. lia.
    + intros x y q Ex1 Ey1 E1 E2. apply Ex in Ex1. apply Ex in Ey1. rewrite nth_error_snoc in E1, E2.
      destruct (Nat.eqb_spec x (length ps)) as [->|Nx], (Nat.eqb_spec y (length ps)) as [->|Ny]; auto.
      * injection E1 as <-. destruct Ey1 as [Ey1|]; [destruct (Np y Ey1 E2)|lia].
      * injection E2 as <-. destruct Ex1 as [Ex1|]; [destruct (Np x Ex1 E1)|lia].
      * destruct Ex1 as [Ex1|]; [|lia]. destruct Ey1 as [Ey1|]; [|lia]. eapply Ij; eauto.
    + intros q H. assert (Nq : q <> p).
      { intros ->. apply (H (length ps)); [apply Ex; auto|]. now rewrite nth_error_snoc, Nat.eqb_refl. }
      rewrite hget_hset_other by exact Nq. apply Ot. intros x E Q. apply (H x); [apply Ex; auto|].
      rewrite nth_error_snoc. pose proof (Old x E). destruct (Nat.eqb_spec x (length ps)); [lia|exact Q].
  - (* Mark *)
    pose proof L as (Lx & Rx). destruct (Nd x (conj Lx Rx)) as (p & n & E1 & E2 & E3 & E4 & E5 & E6 & E7).
    exists (hset h p (Node b (nedges n))), ps. split; [unfold perform; rewrite E1; cbn [deref rbind]; unfold set_final; rewrite (read_ok _ _ _ E2 E4); reflexivity|].
    assert (Ex : forall z, exists_still (hist ++ [Mark x b]) z <-> exists_still hist z).
    { intros z. unfold exists_still. rewrite replaced_snoc, made_snoc, app_nil_r. split; intros (A1 & A2); (split; [exact A1|]); [tauto|].
      intros [R|(? & ? & ? & E & _)]; [tauto|discriminate]. }
    constructor.
    + rewrite made_snoc, app_nil_r. exact Ln.
    + intros z E. apply Ex in E. destruct (Nat.eq_dec z x) as [->|Nz].
      * exists p, (Node b (nedges n)). split; [exact E1|]. split; [exact E2|]. split; [exact E3|]. split; [apply hget_hset_same|].
        split; [unfold finality; rewrite marked_snoc, Nat.eqb_refl; reflexivity|]. split; [exact E6|]. intros c. rewrite target_snoc. exact (E7 c).
      * destruct (Nd z E) as (q & m & F1 & F2 & F3 & F4 & F5 & F6 & F7). exists q, m. split; [exact F1|]. split; [exact F2|]. split; [exact F3|].
        split; [rewrite hget_hset_other; [exact F4|intros ->; apply Nz; eapply Ij; eauto; split; auto]|].
        split; [rewrite finality_old; [exact F5|apply E|congruence]|]. split; [exact F6|]. intros c. rewrite target_snoc. exact (F7 c).
    + intros z y q Ez Ey. apply Ij; now apply Ex.
    + intros q H. rewrite hget_hset_other; [apply Ot; intros z E; apply H; now apply Ex|]. intros ->. apply (H x); [apply Ex; split; auto|exact E1].
  - (* Link *)
    destruct L as ((Lx & Rx0) & (Ly & Ry0) & Lo).
    destruct (Nd x (conj Lx Rx0)) as (p & n & E1 & E2 & E3 & E4 & E5 & E6 & E7).
    destruct (Nd y (conj Ly Ry0)) as (q & m & F1 & F2 & F3 & F4 & _).
    assert (Ex : forall z, exists_still (hist ++ [Link x c y]) z <-> exists_still hist z /\ target hist x c <> Some z).
    { intros z. unfold exists_still. rewrite replaced_snoc, made_snoc, app_nil_r. split.
      - intros (A1 & A2). split; [split; [exact A1|tauto]|]. intros T'. apply A2. right. exists x, c, y. auto.
      - intros ((A1 & A2) & A3). split; [exact A1|]. intros [R|(x' & c' & y' & E & J)]; [tauto|]. injection E as <- <- <-. tauto. }
    assert (Nx : target hist x c <> Some x) by (intros T'; destruct (Lo _ T'); congruence).
    assert (Ny : target hist x c <> Some y) by (intros T'; destruct (Lo _ T') as (_ & N & _); congruence).
    (* the old target *)
    assert (D : exists h1, delete h (transition n c) = Ok h1 /\ hget h1 p = Some n /\
      (forall z r, exists_still hist z -> target hist x c <> Some z -> nth_error ps z = Some r -> hget h1 r = hget h r) /\
      (forall r, (forall z, exists_still hist z -> target hist x c <> Some z -> nth_error ps z <> Some r) -> hget h1 r = hget h0 r)).
    { pose proof (E7 c) as X. unfold transition, delete. destruct (target hist x c) as [y0|] eqn:Et.
      - destruct X as (q0 & G1 & G2). rewrite G2. destruct (target_kept _ Oh x c y0 (conj Lx Rx0) Et) as (Lm & Ry).
        destruct (Nd y0 (conj Lm Ry)) as (q0' & m0 & H1 & H2 & H3 & H4 & _). rewrite G1 in H1. injection H1 as <-.
        destruct (N.eqb_spec q0 null) as [->|_]; [contradiction|]. rewrite H4. exists (hdel h q0). split; [reflexivity|].
        assert (Dif : forall z r, exists_still hist z -> Some y0 <> Some z -> nth_error ps z = Some r -> r <> q0).
        { intros z r Ez Nz Er ->. apply Nz. f_equal. eapply Ij; eauto. split; auto. }
        split; [|split].
        + rewrite hget_hdel. destruct (N.eqb_spec p q0) as [->|_]; [|exact E4].
          exfalso. refine (Dif x q0 (conj Lx Rx0) _ E1 eq_refl). congruence.
        + intros z r Ez Nz Er. rewrite hget_hdel. destruct (N.eqb_spec r q0) as [->|_]; [|reflexivity]. destruct (Dif z q0 Ez Nz Er eq_refl).
        + intros r H. rewrite hget_hdel. destruct (N.eqb_spec r q0) as [->|Nr]; [now rewrite H3|]. apply Ot. intros z Ez Er.
          destruct (Nat.eq_dec z y0) as [->|Nz]; [rewrite G1 in Er; congruence|]. apply (H z Ez); [congruence|exact Er].
      - rewrite X. cbn. exists h. split; [reflexivity|]. split; [exact E4|]. split; [reflexivity|]. intros r H. apply Ot. intros z Ez. apply H; [exact Ez|discriminate]. }
    destruct D as (h1 & D1 & D2 & D3 & D4).
    exists (hset h1 p (Node (nfin n) (edge_set (nedges n) c q))), ps. split.
    { unfold perform. rewrite E1, F1. cbn [deref rbind]. unfold add_edge. rewrite (read_ok _ _ _ E2 E4). cbn [rbind]. rewrite D1. cbn [rbind].
      rewrite (read_ok _ _ _ E2 D2). reflexivity. }
    constructor.
    + rewrite made_snoc, app_nil_r. exact Ln.
    + intros z E. apply Ex in E. destruct E as (E & Nz). destruct (Nat.eq_dec z x) as [->|Nzx].
      * exists p, (Node (nfin n) (edge_set (nedges n) c q)). split; [exact E1|]. split; [exact E2|]. split; [exact E3|]. split; [apply hget_hset_same|].
        split; [rewrite finality_old; [exact E5|exact Lx|discriminate]|]. cbn [nedges nfin]. split; [now apply edge_set_sorted|].
        intros d. rewrite target_snoc, Nat.eqb_refl, edge_get_set. cbn [andb].
        destruct (ceqb_spec c d) as [[-> Q]|[Q1 Q2]].
        -- rewrite ceqb_refl. exists q. auto.
        -- rewrite Q2. destruct (ceqb_spec d c) as [[-> Q]|[Q3 Q4]]; [congruence|]. rewrite Q4. exact (E7 d).
      * destruct (Nd z E) as (r & k & G1 & G2 & G3 & G4 & G5 & G6 & G7). exists r, k. split; [exact G1|]. split; [exact G2|]. split; [exact G3|].
        split.
        { rewrite hget_hset_other; [rewrite (D3 z r E Nz G1); exact G4|]. intros ->. apply Nzx. eapply Ij; eauto. split; auto. }
        split; [rewrite finality_old; [exact G5|apply E|discriminate]|]. split; [exact G6|].
        intros d. rewrite target_snoc. destruct (Nat.eqb_spec x z); [congruence|]. cbn [andb]. exact (G7 d).
    + intros z u r Ez Eu. apply Ij; [apply (proj1 (proj1 (Ex z) Ez))|apply (proj1 (proj1 (Ex u) Eu))].
    + intros r H. rewrite hget_hset_other.
      * apply D4. intros z Ez Nz. apply H. apply Ex. auto.
      * intros ->. apply (H x); [apply Ex; split; [split; auto|exact Nx]|exact E1].
Qed.

Lemma perform_app : forall alloc a b h ps, perform_all alloc h ps (a ++ b) = do (h1, ps1) <- perform_all alloc h ps a; perform_all alloc h1 ps1 b.
Proof.
  intros alloc. induction a as [|o a IH]; intros b h ps; [reflexivity|]. cbn [app perform_all]. destruct (perform alloc h ps o) as [[h1 ps1]| |]; cbn [rbind]; auto.
Qed.

Lemma perform_all_ok : forall alloc h0 hist, allocator alloc -> orderly hist ->
  exists h ps, perform_all alloc h0 [] hist = Ok (h, ps) /\ stands h0 hist h ps.
Proof.
  intros alloc h0 hist A. induction hist as [|o hist IH] using rev_ind; intros O.
  - exists h0, []. split; [reflexivity|apply stands_nil].
  - destruct (IH (orderly_prefix _ _ O)) as (h & ps & E & St). destruct (perform_ok alloc h0 hist h ps o A O St) as (h' & ps' & E' & St').
    exists h', ps'. split; [|exact St']. rewrite perform_app, E. cbn [rbind perform_all]. rewrite E'. reflexivity.
Qed.

Lemma replaced_dec : forall hist z, replaced hist z \/ ~ replaced hist z.
Proof.
  intros hist z. induction hist as [|o hist IH] using rev_ind.
  - right. intros (a & ? & ? & ? & ? & E & _). destruct a; discriminate.
  - rewrite replaced_snoc. destruct IH as [R|R]; [auto|]. destruct o as [b|x b|x c y].
    + right. intros [Q|(? & ? & ? & Q & _)]; [auto|discriminate].
    + right. intros [Q|(? & ? & ? & Q & _)]; [auto|discriminate].
    + destruct (target hist x c) as [w|] eqn:E; [destruct (Nat.eq_dec w z) as [->|N]|].
      * left. right. exists x, c, y. auto.
      * right. intros [Q|(x0 & c0 & y0 & Q & T')]; [auto|]. injection Q as <- <- <-. congruence.
      * right. intros [Q|(x0 & c0 & y0 & Q & T')]; [auto|]. injection Q as <- <- <-. congruence.
Qed.

Lemma still_dec : forall hist z, exists_still hist z \/ ~ exists_still hist z.
Proof.
  intros hist z. unfold exists_still. destruct (replaced_dec hist z); [right; tauto|]. destruct (Nat.lt_ge_cases z (length (made hist))); [auto|right; lia].
Qed.

Lemma some_or_none : forall (P : nat -> Prop) n, (forall x, P x \/ ~ P x) -> (exists x, x < n /\ P x) \/ (forall x, x < n -> ~ P x).
Proof.
  intros P n D. induction n as [|n IH]; [right; lia|]. destruct IH as [(x & L & Q)|N]; [left; exists x; split; [lia|exact Q]|].
  destruct (D n) as [Q|Q]; [left; exists n; split; [lia|exact Q]|right]. intros x L. destruct (Nat.eq_dec x n) as [->|]; [exact Q|]. apply N. lia.
Qed.

(** ** Calls that are not orderly *)

(** One edge more, whatever it leads to. *)
Lemma link_step : forall alloc h0 hist h ps x c y p q n r, stands h0 hist h ps ->
  nth_error ps x = Some p -> p <> null -> hget h p = Some n -> nth_error ps y = Some q ->
  edge_get (nedges n) c = Some r -> r <> null -> hget h r <> None -> r <> p ->
  perform alloc h ps (Link x c y) = Ok (hset (hdel h r) p (Node (nfin n) (edge_set (nedges n) c q)), ps).
Proof.
  intros alloc h0 hist h ps x c y p q n r _ E1 E2 E3 E4 E5 E6 E7 E8. unfold perform. rewrite E1, E4. cbn [deref rbind]. unfold add_edge.
  rewrite (read_ok _ _ _ E2 E3). cbn [rbind]. unfold transition, delete. rewrite E5. destruct (N.eqb_spec r null); [contradiction|].
  destruct (hget h r); [|contradiction]. cbn [rbind]. rewrite (read_ok (hdel h r) p n E2); [reflexivity|]. rewrite hget_hdel.
  destruct (N.eqb_spec p r); [congruence|exact E3].
Qed.

(** Looking up a term whose first edge leads to memory that was freed. *)
Lemma dangling : forall h p n c q w size, p <> null -> hget h p = Some n -> edge_get (nedges n) c = Some q -> q <> null -> hget h q = None ->
  contains h (Dawg p size) (c :: w) = UB.
Proof.
  intros h p n c q w size E1 E2 E3 E4 E5. unfold contains. cbn [d_root contains_loop]. destruct (N.eqb_spec p null); [contradiction|].
  rewrite (read_ok _ _ _ E1 E2). cbn [rbind]. cbn [N.eqb]. unfold transition. rewrite E3.
  assert (R : read h q = UB) by (unfold read; rewrite E5; now destruct (N.eqb q null)).
  destruct w as [|d w]; cbn [contains_loop rbind]; destruct (N.eqb_spec q null); try contradiction; rewrite R; reflexivity.
Qed.
