(** * BucketsProofs: the hash table of SortedDawg implements the list of ModelDawg. *)
From Coq Require Import Sorting.Permutation Sorting.Sorted.
From Verif Require Import Base Spec ModelHash ModelDawg ModelBuckets SpecDawg TreeProofs HeapProofs BuildProofs BuildProofs2 DawgProofs.
Local Open Scope nat_scope.

(** ** Tables *)
Record spread (t : table) (m : list entry) : Prop := {
  sp_ne : t <> [];
  sp_slot : forall i b e, nth_error t i = Some b -> In e b -> slot_of t (e_hash e) = i;
  sp_all : Permutation (concat t) m;
  sp_nodup : NoDup (mptrs m) }.

Lemma slot_lt t code : t <> [] -> slot_of t code < length t.
Proof. intros N. unfold slot_of. assert (0 < length t) by (destruct t; [congruence|cbn; lia]). pose proof (N.mod_lt code (N.of_nat (length t))). lia. Qed.
Lemma at_slot_length f t : forall i, length (at_slot f t i) = length t.
Proof. induction t as [|b t IH]; intros [|i]; cbn; auto. Qed.
Lemma at_slot_nth f t : forall i j, nth_error (at_slot f t i) j = if i =? j then option_map f (nth_error t j) else nth_error t j.
Proof. induction t as [|b t IH]; intros [|i] [|j]; cbn; auto. destruct (i =? j); auto. Qed.
Lemma at_slot_entries e t : forall i, i < length t -> Permutation (concat (at_slot (cons e) t i)) (e :: concat t).
Proof.
  induction t as [|b t IH]; intros [|i] L; cbn in *; try lia; auto.
  rewrite (IH i) by lia. symmetry. apply Permutation_middle.
Qed.
Lemma at_slot_of f t i code : slot_of (at_slot f t i) code = slot_of t code.
Proof. unfold slot_of. now rewrite at_slot_length. Qed.
Lemma at_slot_ne f t i : t <> [] -> at_slot f t i <> [].
Proof. destruct t, i; cbn; congruence. Qed.

(** One more entry, in its bucket. *)
Lemma placed_one t e : t <> [] -> (forall i b x, nth_error t i = Some b -> In x b -> slot_of t (e_hash x) = i) ->
  let t' := at_slot (cons e) t (slot_of t (e_hash e)) in
  t' <> [] /\ (forall i b x, nth_error t' i = Some b -> In x b -> slot_of t' (e_hash x) = i) /\
  Permutation (concat t') (e :: concat t).
Proof.
  intros Ne P t'. split; [now apply at_slot_ne|]. split; [|apply at_slot_entries; now apply slot_lt].
  intros i b x N I. unfold t' in N. rewrite at_slot_nth in N. unfold t'. rewrite at_slot_of.
  destruct (Nat.eqb_spec (slot_of t (e_hash e)) i) as [<-|D]; [|eauto].
  destruct (nth_error t (slot_of t (e_hash e))) as [b0|] eqn:Eb; [|discriminate]. cbn in N. injection N as <-.
  destruct I as [<-|I]; eauto.
Qed.

Section Table.
  Variable cached : bool.
  Variable grow : table -> option nat.
  Variables (B : nat) (h : heap).

  Definition known (e : entry) : Prop :=
    e_ptr e <> null /\ exists t, nunf h (e_key e) t /\ e_hash e = thash t /\ height t <= B.

  Lemma bucket_find_ok fuel key t b : B <= fuel -> nunf h key t -> height t <= B -> (forall e, In e b -> known e) ->
    exists p, bucket_find cached fuel h (thash t) key b = Ok p /\
      ((p = null /\ forall e, In e b -> ~ nunf h (e_key e) t) \/
       (exists e, In e b /\ p = e_ptr e /\ nunf h (e_key e) t)).
  Proof.
    intros F K H. induction b as [|e b IH]; intros Hm.
    - exists null. split; [auto|]. left. split; auto.
    - destruct IH as (p & Ep & D); [intros; apply Hm; right; auto|].
      destruct (Hm e (or_introl eq_refl)) as (Pe & te & Ne & He & _).
      destruct (node_eq_all B h key (e_key e) t te K Ne H) as (r & Er & Ir). cbn [bucket_find].
      assert (Skip : te <> t -> exists p0, Ok p = Ok p0 /\
        ((p0 = null /\ forall e0, In e0 (e :: b) -> ~ nunf h (e_key e0) t) \/
         (exists e0, In e0 (e :: b) /\ p0 = e_ptr e0 /\ nunf h (e_key e0) t))).
      { intros N. exists p. split; [reflexivity|]. destruct D as [[-> D]|(e' & I & -> & D)].
        - left. split; auto. intros e' [<-|I]; auto. intros X. apply N. eapply nunf_det; eauto.
        - right. exists e'. split; [right; auto|auto]. }
      destruct (cached && negb (N.eqb (e_hash e) (thash t))) eqn:Ec.
      + rewrite Ep. apply Skip. intros ->. apply andb_true_iff in Ec. destruct Ec as [_ Ec]. rewrite He, N.eqb_refl in Ec. discriminate.
      + rewrite Er by auto. cbn [rbind]. destruct r.
        * exists (e_ptr e). split; [reflexivity|]. right. exists e. split; [left; auto|]. split; auto.
          rewrite (proj1 Ir eq_refl). exact Ne.
        * rewrite Ep. apply Skip. intros ->. destruct Ir as [_ Ir]. specialize (Ir eq_refl). discriminate.
  Qed.

  Lemma place_all_ok fuel : B <= fuel -> forall es t, t <> [] ->
    (forall i b x, nth_error t i = Some b -> In x b -> slot_of t (e_hash x) = i) -> (forall e, In e es -> known e) ->
    exists t', place_all cached fuel h t es = Ok t' /\ t' <> [] /\
      (forall i b x, nth_error t' i = Some b -> In x b -> slot_of t' (e_hash x) = i) /\
      Permutation (concat t') (es ++ concat t).
  Proof.
    intros F. induction es as [|e es IH]; intros t Ne P K; cbn [place_all]; [exists t; auto|].
    assert (Ec : code_of cached fuel h e = Ok (e_hash e)).
    { unfold code_of. destruct cached; [reflexivity|]. destruct (K e (or_introl eq_refl)) as (_ & te & N & -> & Hh).
      apply node_hash_ok; auto. lia. }
    rewrite Ec. cbn [rbind]. destruct (placed_one t e Ne P) as (N1 & P1 & Q1).
    destruct (IH _ N1 P1) as (t2 & -> & N2 & P2 & Q2); [intros x I; apply K; now right|].
    exists t2. split; [reflexivity|]. split; [exact N2|]. split; [exact P2|]. rewrite Q2, Q1. cbn. symmetry. apply Permutation_middle.
  Qed.

  Lemma regrow_ok fuel n t m : B <= fuel -> spread t m -> (forall e, In e m -> known e) ->
    exists t', regrow cached fuel h n t = Ok t' /\ spread t' m.
  Proof.
    intros F [Ne P Pe ND] K. unfold regrow.
    assert (Z : concat (repeat [] (S n)) = @nil entry) by (clear; induction n; cbn; auto).
    destruct (place_all_ok fuel F (concat t) (repeat [] (S n))) as (t' & -> & N' & P' & Q').
    - discriminate.
    - intros i b x N I. apply nth_error_In, repeat_spec in N. subst b. destruct I.
    - intros e I. apply K. eapply Permutation_in; eauto.
    - exists t'. split; [reflexivity|]. constructor; auto. rewrite Q', Z, app_nil_r. exact Pe.
  Qed.

  (** Looking into one bucket is looking everywhere. *)
  Lemma in_bucket t m e code : spread t m -> In e m -> e_hash e = code -> In e (nth (slot_of t code) t []).
  Proof.
    intros [Ne P Pe _] I Ec. apply (Permutation_in _ (Permutation_sym Pe)) in I. apply in_concat in I.
    destruct I as (b & Ib & I). apply In_nth_error in Ib. destruct Ib as (i & Ni). pose proof (P _ _ _ Ni I) as Es.
    rewrite Ec in Es. rewrite Es. now rewrite (nth_error_nth _ _ _ Ni).
  Qed.
  Lemma bucket_in t m e i : spread t m -> In e (nth i t []) -> In e m.
  Proof.
    intros [Ne P Pe _] I. apply (Permutation_in _ Pe). destruct (nth_in_or_default i t []) as [J|E]; [|rewrite E in I; destruct I].
    apply in_concat. eauto.
  Qed.

End Table.

Lemma minv_known : forall B h m, minv B h m -> forall e, In e m -> known B h e.
Proof. intros B h m M e I. destruct (mi_ent _ _ _ M e I) as (N & _ & t & U & Hh & Ht). split; eauto. Qed.

Section Build.
  Variable cached : bool.
  Variable grow : table -> option nat.

  Lemma find_same : forall B h m tb fuel key t p, minv B h m -> spread tb m -> B <= fuel -> nunf h key t -> height t <= B ->
    map_find fuel h (thash t) key m = Ok p ->
    bucket_find cached fuel h (thash t) key (nth (slot_of tb (thash t)) tb []) = Ok p.
  Proof.
    intros B h m tb fuel key t p M Sp F K H E. pose proof (minv_known _ _ _ M) as Kn.
    destruct (bucket_find_ok cached B h fuel key t (nth (slot_of tb (thash t)) tb []) F K H) as (p' & E' & D').
    { intros e I. eapply Kn, bucket_in; eauto. }
    rewrite E'. f_equal.
    destruct (map_find_ok B h key t m K H) as (q & Eq & D).
    { intros e I. destruct (Kn e I) as (? & te & ? & ? & _). eauto. }
    rewrite Eq in E by auto. injection E as ->.
    destruct D as [[-> D]|(e & I & -> & D)], D' as [[-> D']|(e' & I' & -> & D')]; auto.
    - exfalso. eapply D; [eapply bucket_in; eauto|exact D'].
    - exfalso. apply (D' e); auto. eapply in_bucket; eauto.
      destruct (Kn e I) as (_ & te & Ne & He & _). rewrite He. f_equal. eapply nunf_det; eauto.
    - assert (U : forall x, In x m -> nunf h (e_key x) t -> unf h (e_ptr x) t).
      { intros x Ix Nx. destruct (mi_ent _ _ _ M x Ix) as (N & G & _). eapply unf_intro; eauto. }
      apply bucket_in with (m := m) in I'; auto. apply (mi_inj _ _ _ M e' e t); auto.
  Qed.

  (** One iteration of minimize. *)
  Lemma step_same : forall B h0 h root c s t un m fl frs t0 tb fuel h' w',
    inv B h0 h root (Work (Trans c s t :: un) m fl) frs t0 -> height t0 <= B -> B <= fuel -> spread tb m ->
    minimize_loop 1 fuel h (Work (Trans c s t :: un) m fl) = Ok (h', w') ->
    exists tb', (forall k, h_minimize_loop cached grow (S k) fuel h (HWork (Trans c s t :: un) tb fl) =
        h_minimize_loop cached grow k fuel h' (HWork un tb' fl)) /\
      w_unchecked w' = un /\ w_floating w' = fl /\ spread tb' (w_minimized w').
  Proof.
    intros B h0 h root c s t un m fl frs t0 tb fuel h' w' I Ht Hf Sp E.
    pose proof (iv_frames _ _ _ _ _ _ _ I) as F. cbn [w_unchecked] in F.
    inversion F as [|c' t' un' frs' n es Gs Us Lt F']; subst. clear F.
    pose proof (iv_top _ _ _ _ _ _ _ I) as Ut. cbn [w_unchecked top t_target] in Ut.
    destruct (unf_inv _ _ _ Ut) as (nt & NNt & Gt & Nt).
    pose proof (iv_min _ _ _ _ _ _ _ I) as M. cbn [w_minimized] in M.
    set (s := top root un) in *.
    assert (Js : In s (root :: targets (Trans c s t :: un))).
    { pose proof (top_In root un) as X. cbn in *. fold s in X. tauto. }
    pose proof (iv_disj _ _ _ _ _ _ _ I s Js) as Ds. cbn [w_minimized] in Ds.
    assert (NNs : s <> null).
    { eapply (iv_own _ _ _ _ _ _ _ I). cbn [w_floating]. pose proof (iv_tfloat _ _ _ _ _ _ _ I) as X. cbn in X.
      pose proof (top_In root un) as Y. fold s in Y. destruct Y as [Y|Y]; [left; auto|right; apply X; right; auto]. }
    assert (Nts : t <> s).
    { pose proof (iv_nodup _ _ _ _ _ _ _ I) as ND. cbn in ND. inversion ND as [|? ? N1 N2]; subst.
      inversion N2; subst. intros X. rewrite X in *. pose proof (top_In root un) as Y. fold s in Y.
      destruct Y as [Y|Y]; [apply N1; left; congruence | auto]. }
    assert (Jt : In t (root :: targets (Trans c s t :: un))) by (cbn; auto).
    pose proof (iv_disj _ _ _ _ _ _ _ I t Jt) as Dt. cbn [w_minimized] in Dt.
    destruct (iv_edges _ _ _ _ _ _ _ I t Jt) as (nt2 & Gt2 & St & Et). cbn [w_minimized] in Et.
    rewrite Gt in Gt2. injection Gt2 as <-.
    assert (Gc : edge_get (nedges n) c = None).
    { apply edge_get_None. intros q J. apply Lt in J. lia. }
    assert (Ment : forall e, In e m -> exists te, nunf h (e_key e) te /\ e_hash e = thash te /\ e_ptr e <> null).
    { intros e J. destruct (mi_ent _ _ _ M e J) as (? & _ & te & ? & ? & _). eauto. }
    destruct (map_find_ok B h nt t0 m Nt Ht Ment) as (p & Ep & D).
    assert (Efind : minimized_node fuel h m t = Ok p).
    { unfold minimized_node. rewrite (read_ok _ _ _ NNt Gt). cbn [rbind].
      rewrite (node_hash_ok fuel h nt t0 Nt) by lia. cbn [rbind]. auto. }
    assert (Efind' : h_minimized_node cached fuel h tb t = Ok p).
    { unfold h_minimized_node. rewrite (read_ok _ _ _ NNt Gt). cbn [rbind].
      rewrite (node_hash_ok fuel h nt t0 Nt) by lia. cbn [rbind]. eapply find_same; eauto. }
    cbn [minimize_loop w_unchecked w_minimized w_floating] in E. rewrite Efind in E. cbn [rbind] in E.
    cbn [h_minimize_loop hw_unchecked hw_table hw_floating]. rewrite Efind'. cbn [rbind].
    destruct (N.eqb p null) eqn:En.
    - apply N.eqb_eq in En. subst p. destruct D as [[_ D]|(e & J & X & _)]; [|exfalso; apply (proj1 (mi_ent _ _ _ M e J)); auto].
      rewrite (add_edge_ok h s n c t NNs Gs Gc) in E |- *. cbn [rbind] in E |- *.
      set (h1 := hset h s (Node (nfin n) (edge_set (nedges n) c t))) in *.
      assert (Em : forall r, In r (mptrs m) -> hget h1 r = hget h r).
      { intros r J. apply hget_hset_other. intros ->. auto. }
      pose proof (minv_frame B h h1 m M Em) as M1.
      assert (Nt1 : nunf h1 nt t0).
      { destruct Nt as (So & U & Fi). repeat split; auto. eapply minv_unfs with (h := h) (m := m); eauto. }
      assert (Gt1 : hget h1 t = Some nt) by (unfold h1; rewrite hget_hset_other; auto).
      assert (D1 : forall e, In e m -> ~ nunf h1 (e_key e) t0).
      { intros e J X. destruct (mi_ent _ _ _ M e J) as (_ & G & te & Ne & _). apply (D e J).
        assert (te = t0) as <-; [|exact Ne]. eapply nunf_det; [|exact X]. destruct Ne as (So & U & Fi).
        repeat split; auto. eapply minv_unfs with (h := h) (m := m); eauto.
        intros c0 q J0. apply (mi_closed _ _ _ M _ _ _ _ (in_map e_ptr _ _ J) G J0). }
      unfold map_assign in E. rewrite (read_ok _ _ _ NNt Gt1) in E. cbn [rbind] in E.
      rewrite (node_hash_ok fuel h1 nt t0 Nt1) in E by lia. cbn [rbind] in E.
      rewrite (map_replace_new B h1 nt t0 t m Nt1 Ht) in E; auto.
      2:{ intros e J. destruct (mi_ent _ _ _ M1 e J) as (? & _ & te & ? & ? & _). eauto. }
      cbn [rbind minimize_loop] in E. injection E as <- <-.
      unfold h_assign. rewrite (read_ok _ _ _ NNt Gt1). cbn [rbind].
      rewrite (node_hash_ok fuel h1 nt t0 Nt1) by lia. cbn [rbind].
      destruct (bucket_find_ok cached B h1 fuel nt t0 (nth (slot_of tb (thash t0)) tb []) Hf Nt1 Ht) as (p' & Ep' & D').
      { intros e J. eapply minv_known; eauto. eapply bucket_in; eauto. }
      assert (p' = null) as ->.
      { destruct D' as [[-> _]|(e & J & _ & X)]; [reflexivity|]. exfalso. eapply D1; [|exact X]. eapply bucket_in; eauto. }
      rewrite Ep'. cbn [rbind]. change (negb (N.eqb null null)) with false. cbn [rbind].
      assert (X : exists t1, match grow tb with Some n0 => regrow cached fuel h1 n0 tb | None => Ok tb end = Ok t1 /\ spread t1 m).
      { destruct (grow tb); [|eauto]. eapply regrow_ok; eauto. now apply minv_known. }
      destruct X as (t1 & -> & Sp1). cbn [rbind].
      exists (at_slot (cons (Entry (thash t0) nt t)) t1 (slot_of t1 (thash t0))).
      split; [reflexivity|]. split; [reflexivity|]. split; [reflexivity|]. cbn [w_minimized].
      destruct Sp1 as [Ne P Pe ND]. destruct (placed_one t1 (Entry (thash t0) nt t) Ne P) as (N2 & P2 & Q2).
      cbn [e_hash] in N2, P2, Q2. constructor; auto.
      + rewrite Q2, Pe. apply Permutation_cons_append.
      + unfold mptrs in *. rewrite map_app. cbn [map e_ptr]. eapply Permutation_NoDup; [apply Permutation_cons_append|].
        constructor; auto.
    - rewrite (add_edge_ok h s n c p NNs Gs Gc) in E |- *. cbn [rbind minimize_loop] in E |- *. injection E as <- <-.
      exists tb. auto.
  Qed.

  Lemma minimize_loop_same : forall k B h0 h root un m fl frs t0 tb fuel h' w',
    inv B h0 h root (Work un m fl) frs t0 -> height (fill frs t0) <= B -> B <= fuel -> k <= length un -> spread tb m ->
    minimize_loop k fuel h (Work un m fl) = Ok (h', w') ->
    exists tb', h_minimize_loop cached grow k fuel h (HWork un tb fl) = Ok (h', HWork (w_unchecked w') tb' (w_floating w')) /\
      spread tb' (w_minimized w').
  Proof.
    induction k as [|k IH]; intros B h0 h root un m fl frs t0 tb fuel h' w' I Ht Hf Hk Sp E.
    - cbn in E |- *. injection E as <- <-. eauto.
    - destruct un as [|[c s t] un]; [cbn in Hk; lia|].
      assert (Ht0 : height t0 <= B) by (pose proof (height_fill frs t0); lia).
      destruct (minimize_step B h0 h root c s t un m fl frs t0 I Ht0) as (h1 & m1 & frs1 & t1 & n1 & E1 & I1 & Fl & _).
      pose proof (E1 fuel 0 Hf) as E2. change (minimize_loop 0 fuel h1 (Work un m1 fl)) with (Ok (h1, Work un m1 fl)) in E2.
      destruct (step_same B h0 h root c s t un m fl frs t0 tb fuel h1 (Work un m1 fl) I Ht0 Hf Sp E2) as (tb1 & Eh & _ & _ & Sp1).
      rewrite E1 in E by auto. rewrite Eh. eapply IH; eauto; [rewrite Fl; exact Ht|cbn in Hk; lia].
  Qed.

  (** The same object with a table and with a list. *)
  Definition same_builder (b : builder) (hb : hbuilder) : Prop :=
    hb_dawg hb = b_dawg b /\ hb_prev hb = b_prev b /\
    match b_work b, hb_work hb with
    | Some w, Some hw => hw_unchecked hw = w_unchecked w /\ hw_floating hw = w_floating w /\ spread (hw_table hw) (w_minimized w)
    | None, None => True
    | _, _ => False
    end.

  Lemma push_suffix_other alloc m' : forall rest h un m fl s,
    push_suffix alloc h (Work un m' fl) s rest =
      let '(h2, w2, l) := push_suffix alloc h (Work un m fl) s rest in (h2, Work (w_unchecked w2) m' (w_floating w2), l).
  Proof. induction rest as [|c rest IH]; intros; cbn; auto. Qed.
  Lemma push_suffix_min alloc : forall rest h w s h2 w2 l, push_suffix alloc h w s rest = (h2, w2, l) -> w_minimized w2 = w_minimized w.
  Proof.
    induction rest as [|c rest IH]; intros h w s h2 w2 l E; cbn in E; [now injection E as <- <- <-|].
    apply IH in E. exact E.
  Qed.

  Lemma add_same alloc B h0 h b t w frs t0 hb fuel term r h' b' :
    binv B h0 h b t w frs t0 -> B <= fuel -> same_builder b hb -> add fuel alloc h b term = Ok (r, h', b') ->
    exists hb', h_add cached grow fuel alloc h hb term = Ok (r, h', hb') /\ same_builder b' hb'.
  Proof.
    intros BI Hf (Ed & Ep & Wk) E. unfold add in E. unfold h_add. rewrite Ed, Ep.
    destruct (str_ltb term (b_prev b)).
    { injection E as <- <- <-. exists hb. split; [reflexivity|]. repeat split; auto. }
    destruct term as [|c term].
    { destruct (set_final h (d_root (b_dawg b)) true) as [h1| |]; cbn [rbind] in E |- *; try discriminate.
      injection E as <- <- <-. eexists. split; [reflexivity|]. repeat split; auto. }
    destruct BI as [Hw I Ht Hh _ _]. rewrite Hw in Wk, E. destruct (hb_work hb) as [[hun tb hfl]|]; [|destruct Wk].
    cbn [hw_unchecked hw_floating hw_table] in Wk. destruct Wk as (-> & -> & Sp). destruct w as [un m fl].
    cbn [deref rbind w_unchecked w_floating w_minimized] in *.
    unfold minimize in E. unfold h_minimize. cbn [w_unchecked hw_unchecked] in *.
    destruct (minimize_loop (length un - common_prefix (c :: term) (b_prev b)) fuel h (Work un m fl)) as [[h1 w1]| |] eqn:Em; cbn [rbind] in E; try discriminate.
    destruct (minimize_loop_same (length un - common_prefix (c :: term) (b_prev b)) B h0 h _ un m fl frs t0 tb fuel h1 w1 I ltac:(rewrite Ht; exact Hh) Hf ltac:(lia) Sp Em) as (tb1 & Eh & Sp1).
    rewrite Eh. cbn [rbind hw_unchecked hw_floating hw_table]. unfold other_work. cbn [hw_unchecked hw_floating].
    destruct w1 as [un1 m1 fl1]. cbn [w_unchecked w_floating w_minimized] in *.
    rewrite (push_suffix_other alloc [] _ h1 un1 m1 fl1).
    destruct (push_suffix alloc h1 (Work un1 m1 fl1) _ (skipn (common_prefix (c :: term) (b_prev b)) (c :: term))) as [[h2 w2] l] eqn:Es.
    apply push_suffix_min in Es. cbn [w_minimized] in Es.
    destruct (set_final h2 l true) as [h3| |]; cbn [rbind] in E |- *; try discriminate. injection E as <- <- <-.
    eexists. split; [reflexivity|]. split; [reflexivity|]. split; [reflexivity|]. cbn. rewrite Es. auto.
  Qed.

  Lemma finish_same B h0 h b t w frs t0 hb fuel h' b' :
    binv B h0 h b t w frs t0 -> B <= fuel -> same_builder b hb -> finish fuel h b = Ok (h', b') ->
    exists hb', h_finish cached grow fuel h hb = Ok (h', hb') /\ same_builder b' hb'.
  Proof.
    intros [Hw I Ht Hh _ _] Hf (Ed & Ep & Wk) E. unfold finish in E. unfold h_finish. rewrite Hw in Wk, E.
    destruct (hb_work hb) as [[hun tb hfl]|]; [|destruct Wk]. cbn [hw_unchecked hw_floating hw_table] in Wk.
    destruct Wk as (-> & -> & Sp). destruct w as [un m fl]. cbn [deref rbind w_unchecked w_floating w_minimized] in *.
    unfold minimize in E. unfold h_minimize. cbn [w_unchecked hw_unchecked] in *.
    destruct (minimize_loop (length un - 0) fuel h (Work un m fl)) as [[h1 w1]| |] eqn:Em; cbn [rbind] in E; try discriminate.
    destruct (minimize_loop_same (length un - 0) B h0 h _ un m fl frs t0 tb fuel h1 w1 I ltac:(rewrite Ht; exact Hh) Hf ltac:(lia) Sp Em) as (tb1 & Eh & Sp1).
    rewrite Eh. cbn [rbind]. injection E as <- <-. eexists. split; [reflexivity|]. split; [exact Ed|]. split; [exact Ep|]. cbn. auto.
  Qed.

  Lemma clean_up_same h b hb fuel h' b' : same_builder b hb -> clean_up fuel h b = Ok (h', b') ->
    h_clean_up fuel h hb = Ok (h', HBuilder (b_dawg b') (b_prev b') None) /\ b_dawg b' = b_dawg b.
  Proof.
    intros (Ed & Ep & Wk) E. unfold h_clean_up, without_table, clean_up in *. cbn [b_work b_dawg b_prev].
    destruct (b_work b) as [w|] eqn:Ew, (hb_work hb) as [hw|]; try (destruct Wk; fail).
    - destruct Wk as (Eu & Ef & _). cbn [option_map other_work w_floating]. rewrite Ed, Ef. unfold other_work. cbn [w_floating].
      destruct (all_nodes fuel h (b_dawg b)) as [nodes| |]; cbn [rbind] in E |- *; try discriminate.
      destruct (delete_all h _) as [h1| |]; cbn [rbind] in E |- *; try discriminate. injection E as <- <-.
      cbn. now rewrite Ep.
    - cbn [option_map rbind]. injection E as <- <-. now rewrite Ed, Ep.
  Qed.

  Lemma destroy_same h b hb fuel h' : same_builder b hb -> destroy fuel h b = Ok h' -> h_destroy fuel h hb = Ok h'.
  Proof.
    intros Sb E. unfold destroy in E. unfold h_destroy. destruct (clean_up fuel h b) as [[h1 b1]| |] eqn:Ec; cbn [rbind] in E; try discriminate.
    destruct (clean_up_same h b hb fuel h1 b1 Sb Ec) as [-> _]. exact E.
  Qed.

  Lemma new_same alloc h h1 b : new_sorted_dawg alloc h = (h1, b) ->
    exists hb, h_new alloc h = (h1, hb) /\ same_builder (init b) hb.
  Proof.
    intros E. unfold h_new. rewrite E. eexists. split; [reflexivity|]. repeat split; cbn.
    - discriminate.
    - intros [|[|i]] x e N I; cbn in N; try discriminate. injection N as <-. destruct I.
    - constructor.
    - constructor.
  Qed.

  Lemma adds_same alloc B h0 fuel : allocator alloc -> B <= fuel -> forall ts h b t w frs t0 hb flags h' b',
    binv B h0 h b t w frs t0 -> (forall x, In x ts -> length x < B) -> same_builder b hb ->
    adds fuel alloc h b ts = Ok (flags, h', b') ->
    exists hb', h_adds cached grow fuel alloc h hb ts = Ok (flags, h', hb') /\ same_builder b' hb' /\
      exists t' w' frs' t0', binv B h0 h' b' t' w' frs' t0'.
  Proof.
    intros HA Hf. induction ts as [|x ts IH]; intros h b t w frs t0 hb flags h' b' BI HL Sb E; cbn [adds h_adds] in *.
    - injection E as <- <- <-. exists hb. split; [reflexivity|]. split; [exact Sb|]. eauto.
    - assert (N : exists r h1 b1 t1 w1 frs1 t01, add fuel alloc h b x = Ok (r, h1, b1) /\ binv B h0 h1 b1 t1 w1 frs1 t01).
      { destruct (lex_lt_dec x (b_prev b)) as [L|L].
        - exists false, h, b, t, w, frs, t0. split; [now apply add_reject|exact BI].
        - destruct (add_ok alloc B h0 h b t w frs t0 x HA BI (HL x (or_introl eq_refl)) L) as (h1 & b1 & w1 & frs1 & t01 & E1 & BI1 & _).
          exists true, h1, b1, (tadd t x), w1, frs1, t01. auto. }
      destruct N as (r & h1 & b1 & t1 & w1 & frs1 & t01 & E1 & BI1).
      destruct (add_same alloc B h0 h b t w frs t0 hb fuel x r h1 b1 BI Hf Sb E1) as (hb1 & Eh1 & Sb1).
      rewrite E1 in E. rewrite Eh1. cbn [rbind] in E |- *.
      destruct (adds fuel alloc h1 b1 ts) as [[[rs h2] b2]| |] eqn:E2; cbn [rbind] in E; try discriminate. injection E as <- <- <-.
      destruct (IH h1 b1 t1 w1 frs1 t01 hb1 rs h2 b2 BI1 ltac:(intros; apply HL; now right) Sb1 E2) as (hb2 & -> & Sb2 & X).
      cbn [rbind]. eauto.
  Qed.

  Lemma add_all_same alloc B h0 fuel : allocator alloc -> B <= fuel -> forall ts h b t w frs t0 hb h' o,
    binv B h0 h b t w frs t0 -> (forall x, In x ts -> length x < B) -> same_builder b hb ->
    add_all fuel alloc h b ts = Ok (h', o) ->
    match o with
    | None => h_add_all cached grow fuel alloc h hb ts = Ok (h', None)
    | Some b' => exists hb', h_add_all cached grow fuel alloc h hb ts = Ok (h', Some hb') /\ same_builder b' hb' /\
        exists t' w' frs' t0', binv B h0 h' b' t' w' frs' t0'
    end.
  Proof.
    intros HA Hf. induction ts as [|x ts IH]; intros h b t w frs t0 hb h' o BI HL Sb E; cbn [add_all h_add_all] in *.
    - injection E as <- <-. exists hb. split; [reflexivity|]. split; [exact Sb|]. eauto.
    - destruct (lex_lt_dec x (b_prev b)) as [L|L].
      + pose proof (add_reject fuel alloc h b x L) as E1.
        destruct (add_same alloc B h0 h b t w frs t0 hb fuel x _ _ _ BI Hf Sb E1) as (hb1 & Eh1 & Sb1).
        rewrite E1 in E. rewrite Eh1. cbn [rbind] in E |- *.
        destruct (destroy fuel h b) as [h2| |] eqn:E2; cbn [rbind] in E; try discriminate. injection E as <- <-.
        rewrite (destroy_same _ _ _ _ _ Sb1 E2). reflexivity.
      + destruct (add_ok alloc B h0 h b t w frs t0 x HA BI (HL x (or_introl eq_refl)) L) as (h1 & b1 & w1 & frs1 & t01 & E1 & BI1 & _).
        specialize (E1 fuel Hf).
        destruct (add_same alloc B h0 h b t w frs t0 hb fuel x _ _ _ BI Hf Sb E1) as (hb1 & Eh1 & Sb1).
        rewrite E1 in E. rewrite Eh1. cbn [rbind] in E |- *. eapply IH; eauto. intros; apply HL; now right.
  Qed.

  Lemma longest (ts : list str) : exists B, 1 <= B /\ forall x, In x ts -> length x < B.
  Proof.
    induction ts as [|x ts (B & H1 & H)]; [exists 1; split; [lia|intros ? []]|]. exists (Nat.max B (S (length x))).
    split; [lia|]. intros y [<-|I]; [lia|]. specialize (H y I). lia.
  Qed.

  Lemma sorted_dawg_same alloc h0 ts h r : allocator alloc -> runs_to (fun fuel => sorted_dawg fuel alloc h0 ts) (h, r) ->
    runs_to (fun fuel => h_sorted_dawg cached grow fuel alloc h0 ts) (h, option_map (fun b => HBuilder (b_dawg b) (b_prev b) None) r).
  Proof.
    intros HA [en E]. destruct (longest ts) as (B & HB & HL). exists (Nat.max en B). intros fuel Hf.
    specialize (E fuel ltac:(lia)). unfold sorted_dawg in E. unfold h_sorted_dawg.
    destruct (new_sorted_dawg alloc h0) as [h1 b1] eqn:En.
    destruct (new_same alloc h0 h1 b1 En) as (hb1 & -> & Sb1).
    destruct (new_sorted_dawg_ok alloc B h0 HA HB h1 b1 En) as (BI & _).
    destruct (add_all fuel alloc h1 (init b1) ts) as [[h2 o]| |] eqn:Ea; cbn [rbind] in E; try discriminate.
    pose proof (add_all_same alloc B h0 fuel HA ltac:(lia) ts _ _ _ _ _ _ _ _ _ BI HL Sb1 Ea) as X.
    destruct o as [b2|].
    - destruct X as (hb2 & -> & Sb2 & t' & w' & frs' & t0' & BI2). cbn [rbind].
      destruct (finish fuel h2 b2) as [[h3 b3]| |] eqn:Ef; cbn [rbind] in E; try discriminate.
      destruct (finish_same B h0 h2 b2 _ _ _ _ hb2 fuel h3 b3 BI2 ltac:(lia) Sb2 Ef) as (hb3 & -> & Sb3). cbn [rbind].
      destruct (clean_up fuel h3 b3) as [[h4 b4]| |] eqn:Ec; cbn [rbind] in E; try discriminate. injection E as <- <-.
      destruct (clean_up_same h3 b3 hb3 fuel h4 b4 Sb3 Ec) as [-> _]. reflexivity.
    - rewrite X. cbn [rbind]. injection E as <- <-. reflexivity.
  Qed.
End Build.
