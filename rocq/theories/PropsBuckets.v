(** * PropsBuckets: the hash table inside a dictionary under construction (C79). *)
From Coq Require Import Sorting.Permutation.
From Verif Require Import Base Spec ModelHash ModelDawg ModelBuckets SpecDawg SpecBuckets TreeProofs HeapProofs BuildProofs BuildProofs2
  DawgProofs BucketsProofs PropsDawg.
Local Open Scope nat_scope.

(** ** C79: whichever way the hash table works, however the codes collide and
    whenever it grows, sorted_dawg succeeds exactly on sorted input, and the
    dictionary contains exactly the terms; a failure leaves memory as it was. *)
Theorem C79_hash_table : forall cached grow alloc h0 terms, allocator alloc ->
  exists h r, runs_to (fun fuel => h_sorted_dawg cached grow fuel alloc h0 terms) (h, r) /\
    (r <> None <-> ascending terms) /\
    (r = None -> same_heap h h0) /\
    (forall b w, r = Some b -> (N.of_nat (length w) <= INT_MAX)%N ->
       exists answer, contains h (hb_dawg b) w = Ok answer /\ (answer = true <-> In w terms)).
Proof.
  intros cached grow alloc h0 terms A. destruct (C12_sorted_dawg alloc h0 terms A) as (h & r & R & As & Sa).
  exists h, (option_map (fun b => HBuilder (b_dawg b) (b_prev b) None) r).
  split; [now apply sorted_dawg_same|]. destruct r as [b|]; cbn [option_map].
  - split; [split; [intros _; apply As; discriminate|discriminate]|]. split; [discriminate|].
    intros b0 w [= <-] L. cbn [hb_dawg]. eapply C13_contains; eauto.
  - split; [split; [congruence|intros X; now apply As in X]|]. split; [intros _; now apply Sa|discriminate].
Qed.
Print Assumptions C79_hash_table.

(** The dictionary is the same, node for node and address for address, as with a
    plain list in place of the table. *)
Theorem C79_same : forall alloc h0 terms, allocator alloc ->
  exists h r, runs_to (fun fuel => sorted_dawg fuel alloc h0 terms) (h, r) /\
    forall cached grow, runs_to (fun fuel => h_sorted_dawg cached grow fuel alloc h0 terms)
      (h, option_map (fun b => HBuilder (b_dawg b) (b_prev b) None) r).
Proof.
  intros alloc h0 terms A. destruct (C12_sorted_dawg alloc h0 terms A) as (h & r & R & _).
  exists h, r. split; [exact R|]. intros. now apply sorted_dawg_same.
Qed.
Print Assumptions C79_same.

(** After any calls of add the table is as it must be.  The keys are copies of
    nodes, but their codes and comparisons depend on all nodes below: none of
    these is modified once its key is in the table. *)
Theorem C79_keys : forall cached grow alloc h0 ts, allocator alloc ->
  exists flags h b, runs_to (fun fuel => under_construction fuel alloc h0 ts) (flags, h, b) /\
    exists enough, forall fuel, enough <= fuel ->
    exists hb w, h_construction cached grow fuel alloc h0 ts = Ok (flags, h, hb) /\
      hb_dawg hb = b_dawg b /\ hb_prev hb = b_prev b /\ hb_work hb = Some w /\ well_kept h (hw_table w).
Proof.
  intros cached grow alloc h0 ts A. destruct (longest ts) as (B & HB & HL).
  destruct (new_sorted_dawg alloc h0) as [h1 b1] eqn:En.
  destruct (new_sorted_dawg_ok alloc B h0 A HB h1 b1 En) as (BI & _).
  destruct (new_same alloc h0 h1 b1 En) as (hb1 & Eh & Sb1).
  assert (R : exists flags h b, forall fuel, B <= fuel -> adds fuel alloc h1 (init b1) ts = Ok (flags, h, b)).
  { clear Sb1 Eh En. revert h1 BI. generalize (init b1) as b. generalize leaf at 1 as t. generalize leaf as t0.
    generalize (Work [] [] []) as w. generalize (@nil frame) as frs. induction ts as [|x ts IH]; intros frs w t0 t b h1 BI.
    - exists [], h1, b. reflexivity.
    - destruct (lex_lt_dec x (b_prev b)) as [L|L].
      + destruct (IH ltac:(intros; apply HL; now right) frs w t0 t b h1 BI) as (flags & h & b' & E).
        exists (false :: flags), h, b'. intros fuel Hf. cbn [adds]. rewrite (add_reject fuel alloc h1 b x L). cbn [rbind].
        now rewrite E.
      + destruct (add_ok alloc B h0 h1 b t w frs t0 x A BI (HL x (or_introl eq_refl)) L) as (h2 & b2 & w2 & frs2 & t02 & E2 & BI2 & _).
        destruct (IH ltac:(intros; apply HL; now right) frs2 w2 t02 _ b2 h2 BI2) as (flags & h & b' & E).
        exists (true :: flags), h, b'. intros fuel Hf. cbn [adds]. rewrite E2 by auto. cbn [rbind]. now rewrite E. }
  destruct R as (flags & h & b & R). exists flags, h, b. unfold under_construction. rewrite En. split; [exists B; exact R|].
  exists B. intros fuel Hf. unfold h_construction. rewrite Eh.
  destruct (adds_same cached grow alloc B h0 fuel A Hf ts _ _ _ _ _ _ _ _ _ _ BI HL Sb1 (R fuel Hf)) as (hb & E & (Ed & Ep & Wk) & t' & w' & frs' & t0' & BI').
  destruct BI' as [Hw I _ _ _ _]. rewrite Hw in Wk. destruct (hb_work hb) as [hw|] eqn:Ew; [|destruct Wk].
  destruct Wk as (_ & _ & Sp). exists hb, hw. rewrite E. split; [reflexivity|]. split; [exact Ed|]. split; [exact Ep|]. split; [exact Ew|].
  pose proof (iv_min _ _ _ _ _ _ _ I) as M. destruct Sp as [Ne P Pe ND].
  assert (In' : forall e, In e (concat (hw_table hw)) -> In e (w_minimized w')) by (intros e J; eapply Permutation_in; eauto).
  constructor.
  - intros e J. destruct (mi_ent _ _ _ M e (In' e J)) as (_ & _ & t & N & -> & Ht).
    exists (height t). intros k Hk. now apply node_hash_ok.
  - exact P.
  - intros i j e1 e2 D Hi Hj. pose proof (In' _ (nth_error_In _ _ Hi)) as I1. pose proof (In' _ (nth_error_In _ _ Hj)) as I2.
    destruct (mi_ent _ _ _ M e1 I1) as (N1 & G1 & t1 & U1 & _ & H1). destruct (mi_ent _ _ _ M e2 I2) as (N2 & G2 & t2 & U2 & _ & H2).
    destruct (node_eq_all B h (e_key e1) (e_key e2) t1 t2 U1 U2 H1) as (r & Er & Ir). exists B. intros k Hk.
    rewrite Er by auto. destruct r; [|reflexivity]. exfalso. apply D.
    assert (t1 = t2) as <- by now apply Ir.
    assert (Eq : e_ptr e1 = e_ptr e2) by (apply (mi_inj _ _ _ M e1 e2 t1); auto; eapply unf_intro; eauto).
    assert (ND' : NoDup (map e_ptr (concat (hw_table hw)))) by (eapply Permutation_NoDup; [apply Permutation_map, Permutation_sym; exact Pe|exact ND]).
    rewrite NoDup_nth_error in ND'. apply ND'.
    + rewrite map_length. apply nth_error_Some. rewrite Hi. discriminate.
    + rewrite !nth_error_map, Hi, Hj. cbn. now rewrite Eq.
  - intros e J. apply (mi_ent _ _ _ M e (In' e J)).
Qed.
Print Assumptions C79_keys.

(** All entries in one bucket; a table without stored codes that grows before
    every insertion.  The trie has seven nodes. *)
Example C79_case :
  (exists h b, h_sorted_dawg true (fun _ => None) 20 bump [] [sa; sab; scab; scb] = Ok (h, Some b) /\ length (live h) = 5) /\
  (exists h b, h_sorted_dawg false (fun t => Some (length t)) 20 bump [] [sa; sab; scab; scb] = Ok (h, Some b) /\ length (live h) = 5) /\
  (exists h b w, h_construction false (fun t => Some (length t)) 20 bump [] [sa; sab; sa; scab; scb] =
     Ok ([true; true; false; true; true], h, b) /\ hb_work b = Some w /\ length (hw_table w) = 4 /\ length (concat (hw_table w)) = 3) /\
  (exists h, h_sorted_dawg false (fun t => Some (length t)) 20 bump [] [sab; sa] = Ok (h, None) /\ live h = []).
Proof.
  split; [|split; [|split]].
  - eexists _, _. split; vm_compute; reflexivity.
  - eexists _, _. split; vm_compute; reflexivity.
  - eexists _, _, _. split; [vm_compute; reflexivity|]. split; [reflexivity|]. split; vm_compute; reflexivity.
  - eexists. split; vm_compute; reflexivity.
Qed.

(** Assignment as such, whether or not there is an entry for the key already: it is
    what a lookup finds afterwards.  (In the program an entry is never replaced.) *)
Lemma replace_find : forall cached fuel h code key p b f b', bucket_find cached fuel h code key b = Ok f -> f <> null ->
  bucket_replace cached fuel h code key p b = Ok b' -> bucket_find cached fuel h code key b' = Ok p.
Proof.
  intros cached fuel h code key p b. induction b as [|e b IH]; intros f b' F N E; cbn in F, E; [congruence|].
  destruct (cached && negb (N.eqb (e_hash e) code)) eqn:Ec.
  - destruct (bucket_replace cached fuel h code key p b) as [r| |] eqn:Er; cbn in E; try discriminate. injection E as <-. cbn. rewrite Ec. eauto.
  - destruct (node_eq fuel h key (e_key e)) as [[|]| |] eqn:Eq; cbn [rbind] in F, E; try discriminate.
    + injection E as <-. cbn. rewrite Ec, Eq. reflexivity.
    + destruct (bucket_replace cached fuel h code key p b) as [r| |] eqn:Er; cbn in E; try discriminate. injection E as <-. cbn. rewrite Ec, Eq. eauto.
Qed.

Lemma place_all_length : forall cached fuel h es t t', place_all cached fuel h t es = Ok t' -> length t' = length t.
Proof.
  intros cached fuel h es. induction es as [|e es IH]; intros t t' E; cbn in E; [congruence|].
  destruct (code_of cached fuel h e) as [code| |]; cbn in E; try discriminate. apply IH in E. now rewrite at_slot_length in E.
Qed.

Theorem C79_assigned : forall cached grow fuel h t target n t', t <> [] -> read h target = Ok n -> node_eq fuel h n n = Ok true ->
  h_assign cached grow fuel h t target = Ok t' -> h_minimized_node cached fuel h t' target = Ok target.
Proof.
  intros cached grow fuel h t target n t' Ne Rd Eq E. unfold h_assign in E. unfold h_minimized_node. rewrite Rd in *. cbn [rbind] in *.
  destruct (node_hash fuel h n) as [code| |]; cbn [rbind] in *; try discriminate.
  destruct (bucket_find cached fuel h code n (nth (slot_of t code) t [])) as [f| |] eqn:F; cbn [rbind] in E; try discriminate.
  destruct (negb (N.eqb f null)) eqn:Ef.
  - destruct (bucket_replace cached fuel h code n target (nth (slot_of t code) t [])) as [b| |] eqn:Er; cbn [rbind] in E; try discriminate.
    injection E as <-. rewrite at_slot_of. pose proof (slot_lt t code Ne) as Lt.
    assert (En : nth_error (at_slot (fun _ => b) t (slot_of t code)) (slot_of t code) = Some b).
    { rewrite at_slot_nth, Nat.eqb_refl. destruct (nth_error t (slot_of t code)) eqn:Et; auto. apply nth_error_None in Et. lia. }
    rewrite (nth_error_nth _ _ _ En). eapply replace_find; eauto. apply Bool.negb_true_iff, N.eqb_neq in Ef. exact Ef.
  - assert (G : exists t1, t1 <> [] /\ t' = at_slot (cons (Entry code n target)) t1 (slot_of t1 code)).
    { destruct (grow t) as [m|].
      - destruct (regrow cached fuel h m t) as [t1| |] eqn:Eg; cbn in E; try discriminate. injection E as <-. exists t1. split; auto.
        apply place_all_length in Eg. cbn in Eg. intros ->. discriminate.
      - cbn in E. injection E as <-. eauto. }
    destruct G as (t1 & N1 & ->). rewrite at_slot_of. pose proof (slot_lt t1 code N1) as Lt.
    destruct (nth_error t1 (slot_of t1 code)) as [b|] eqn:Et; [|apply nth_error_None in Et; lia].
    assert (En : nth_error (at_slot (cons (Entry code n target)) t1 (slot_of t1 code)) (slot_of t1 code) = Some (Entry code n target :: b)).
    { now rewrite at_slot_nth, Nat.eqb_refl, Et. }
    rewrite (nth_error_nth _ _ _ En). cbn. rewrite N.eqb_refl, Bool.andb_false_r. cbn. rewrite Eq. reflexivity.
Qed.
Print Assumptions C79_assigned.

(** A leaf is assigned for another leaf. *)
Example C79_assigned_case : let h := hset (hset [] 1%N (Node true [])) 2%N (Node true []) in
  match h_assign true (fun _ => None) 5 h new_table 1%N with
  | Ok t => (h_minimized_node true 5 h t 2%N,
      match h_assign true (fun _ => None) 5 h t 2%N with Ok t' => (h_minimized_node true 5 h t' 1%N, length (concat t')) | _ => (UB, 0) end)
  | _ => (UB, (UB, 0)) end = (Ok 1%N, (Ok 2%N, 1)).
Proof. vm_compute. reflexivity. Qed.
