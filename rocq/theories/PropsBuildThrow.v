(** * PropsBuildThrow: building dictionaries when memory runs out (C72). *)
From Verif Require Import Base Spec ModelDawg SpecDawg PropsDawg TreeProofs HeapProofs BuildProofs BuildProofs2 DawgProofs
  ModelThrow ModelBuildThrow SpecBuildThrow BuildThrowProofs.

(** ** Terms added one by one

    [ts]: the terms and the allocations each call of add() can make; [bs]: the
    same for calls of finish(), made also after an exception.  The dictionary can
    always be asked and destroyed.  It contains what was accepted, perhaps the
    term whose call threw, and nothing else; what it may have lost all begins
    with a beginning of the last term. *)
Theorem C72_build : forall alloc base ts bs, allocator alloc ->
  exists h0 bd0 h1 bd1 flags failed kept h2 bd2 finished reached cut d1 d2 enough,
    new_sorted_dawg alloc base = (h0, bd0) /\
    (forall fuel, enough <= fuel ->
      add_until fuel alloc h0 (init bd0) ts = Ok (h1, bd1, flags, failed) /\
      finishes fuel h1 bd1 bs = Ok (h2, bd2, finished) /\
      destroy fuel h1 bd1 = Ok d1 /\ destroy fuel h2 bd2 = Ok d2) /\
    one_more_at_most d1 base /\ one_more_at_most d2 base /\
    greedy [] (firstn (length flags) (map fst ts)) flags kept /\
    match failed with
    | None => length flags = length ts /\ same_heap d1 base /\ same_heap d2 base
    | Some f => exists b, nth_error ts (length flags) = Some (f, b) /\ b <> None
    end /\
    length finished = length bs /\
    (forall k, nth_error finished k = Some false -> exists b, nth_error bs k = Some b /\ b <> None) /\
    (forall w, (N.of_nat (length w) <= 2147483647)%N ->
      exists a, contains h2 (b_dawg bd2) w = Ok a /\
        (a = true <-> (In w kept \/ reached = true /\ failed = Some w) /\ ~ (exists p, cut = Some p /\ begins p w))) /\
    (forall p, cut = Some p ->
      p <> [] /\ (begins p (last kept []) \/ exists f, failed = Some f /\ begins p f)) /\
    (failed = None -> hd false finished = true -> cut = None).
Proof.
  intros alloc base ts bs A. destruct (short_ex (map fst ts)) as (B & HB & Sh).
  destruct (new_init alloc base) as (h0 & bd0 & E0).
  destruct (new_sorted_dawg_ok alloc B base A HB h0 bd0 E0) as (BI & P0 & S0).
  destruct (add_until_ok alloc A ts B base h0 (init bd0) leaf _ _ _ BI Sh) as (h1 & bd1 & flags & failed & kept & E1 & G & D).
  rewrite P0 in *.
  assert (X : exists base' w frs t0 dn x lost reached,
    b_work bd1 = Some w /\ leaked base base' /\ (failed = None -> base' = base /\ lost = []) /\
    (x = last kept [] \/ failed = Some x) /\
    after base' h1 (d_root (b_dawg bd1)) w frs t0 dn B x
      (fun v => (In v kept \/ reached = true /\ failed = Some v) /\ ~ gone lost v) /\
    (forall p, In p lost -> p <> [] /\ begins p x)).
  { destruct failed as [f|].
    - destruct D as (_ & base' & w & frs & t0 & dn & x & lost & reached & X1 & X2 & X3 & X4 & X5).
      exists base', w, frs, t0, dn, x, lost, reached. split; [exact X1|]. split; [exact X2|]. split; [discriminate|].
      split; [destruct X3 as [->| ->]; auto|]. split; [|exact X5]. eapply after_words; [|exact X4].
      intros v. cbn. unfold trie in *. rewrite tin_trie_from, tin_leaf. intuition congruence.
    - destruct D as (_ & P1 & w & frs & t0 & BI1).
      exists base, w, frs, t0, (mptrs (w_minimized w)), (last kept []), [], false.
      split; [apply BI1|]. split; [now left|]. split; [auto|]. split; [now left|]. split; [|intros p []].
      eapply after_words; [|apply (inv_after B _ _ _ _ _ _ _ (bi_inv _ _ _ _ _ _ _ _ BI1))].
      + intros v. cbn. rewrite (bi_tree _ _ _ _ _ _ _ _ BI1), tin_trie_from, tin_leaf.
        split; [intros [Y|Y]; [discriminate|]; split; [now left|apply gone_nil]|]. intros [[Y|[Y _]] _]; [now right|discriminate].
      + rewrite (bi_tree _ _ _ _ _ _ _ _ BI1). apply BI1.
      + rewrite (bi_prev _ _ _ _ _ _ _ _ BI1), P1. apply begins_refl. }
  destruct X as (base' & w & frs & t0 & dn & x & lost & reached & Hw & Lk & Nf & Hx & A1 & Lo1).
  destruct (finishes_ok bs base' h1 bd1 w frs t0 dn B x _ Hw A1) as
    (h2 & bd2 & finished & w2 & fr2 & t2 & dn2 & lo2 & E2 & Le & Hw2 & Db & A2 & Lo2 & In2 & Hd2 & Un2 & No2).
  destruct (after_root _ _ _ _ _ _ _ _ _ _ A2) as (tr & lo3 & U & Wo & Lo3 & Em3).
  destruct (after_destroy base' h1 bd1 w frs t0 dn Hw (a_inv _ _ _ _ _ _ _ _ _ _ A1)) as (en1 & d1 & Ed1 & Sd1).
  destruct (after_destroy base' h2 bd2 w2 fr2 t2 dn2 Hw2) as (en2 & d2 & Ed2 & Sd2).
  { rewrite Db. apply A2. }
  destruct (shortest x (lost ++ lo2 ++ lo3)) as (cut & Ec & Ic & Nc).
  { intros p J. rewrite !in_app_iff in J. destruct J as [J|[J|J]]; auto. }
  assert (OM : forall d, same_heap d base' -> one_more_at_most d base).
  { intros d Sd. destruct Lk as [->|(q & nd & F & ->)]; [now left|]. right. exists q, nd. split; [exact F|].
    split; [rewrite Sd; apply hget_hset_same|]. intros r N. rewrite Sd. now apply hget_hset_other. }
  exists h0, bd0, h1, bd1, flags, failed, kept, h2, bd2, finished, reached, cut, d1, d2, (Nat.max B (Nat.max en1 en2)).
  split; [exact E0|]. split.
  { intros fuel F. split; [apply E1; lia|]. split; [apply E2; lia|]. split; [apply Ed1; lia|apply Ed2; lia]. }
  split; [auto|]. split; [auto|]. split; [exact G|]. split.
  { destruct failed as [f|]; [apply D|]. destruct (Nf eq_refl) as [-> _]. destruct D as (D & _). auto. }
  split; [exact Le|]. split; [exact No2|]. split; [|split].
  - intros v Lv. pose proof (contains_ok h2 (b_dawg bd2) tr v ltac:(rewrite Db; exact U) Lv) as Co.
    exists (tin tr v). split; [exact Co|]. rewrite Wo, <- Ec, !gone_app. tauto.
  - intros p Y. apply Ic in Y. assert (Z : p <> [] /\ begins p x).
    { rewrite !in_app_iff in Y. destruct Y as [Y|[Y|Y]]; auto. }
    split; [apply Z|]. destruct Hx as [->|Hx]; [left; apply Z|right]. exists x. split; [exact Hx|apply Z].
  - intros F Hd. apply Nc. destruct (Nf F) as [_ ->]. rewrite Hd2 by (now right). cbn. apply Em3, In2.
    destruct finished as [|[|] ?]; cbn in Hd; try discriminate. now left.
Qed.
Print Assumptions C72_build.

(** ** sorted_dawg

    Whatever the number of allocations, sorted_dawg gives the dictionary or the
    nullptr it gives with enough memory, or it throws without having touched
    anything that was there before.  The program ends only if a list out of order
    has to be refused. *)
Theorem C72_sorted_dawg : forall alloc base b terms, allocator alloc ->
  exists left h r, runs_to (fun fuel => try_sorted_dawg fuel alloc b base terms) (left, h, r) /\
    match r with
    | Made bd => runs_to (fun fuel => sorted_dawg fuel alloc base terms) (h, Some bd)
    | Refused => runs_to (fun fuel => sorted_dawg fuel alloc base terms) (h, None)
    | Thrown => b <> None /\ keeps_nodes base h
    | Terminated => b <> None /\ ~ ascending terms
    end.
Proof.
  intros alloc base b terms A. destruct (try_sorted_ok alloc base b terms A) as (b' & h & r & E & N & D).
  exists b', h, r. split; [exact E|]. destruct r; try apply D; split; try apply D.
  - intros X. destruct (N X) as [Y|[? Y]]; discriminate.
  - intros X. destruct (N X) as [Y|[? Y]]; discriminate.
Qed.
Print Assumptions C72_sorted_dawg.

(** A finite number of allocations is always enough. *)
Theorem C72_enough : forall alloc base terms, allocator alloc ->
  exists n h r, runs_to (fun fuel => sorted_dawg fuel alloc base terms) (h, r) /\
    forall k, n <= k ->
      runs_to (fun fuel => try_sorted_dawg fuel alloc (Some k) base terms)
        (Some (k - n), h, match r with Some bd => Made bd | None => Refused end).
Proof.
  intros alloc base terms A. destruct (try_sorted_ok alloc base None terms A) as (b' & h & r & (en & E) & N & D).
  destruct (sorted_suffices _ _ _ _ _ _ _ (E en (le_n _))) as (n & X).
  assert (Y : forall k, n <= k -> runs_to (fun fuel => try_sorted_dawg fuel alloc (Some k) base terms) (Some (k - n), h, r)).
  { intros k L. exists en. intros fuel F. eapply try_sorted_mono; [exact F|]. now apply X. }
  destruct (N eq_refl) as [->|[bd ->]].
  - exists n, h, None. split; [apply D|exact Y].
  - exists n, h, (Some bd). split; [apply D|exact Y].
Qed.
Print Assumptions C72_enough.

(** "An exception leaves nothing behind" is false: once the object and its root
    have been allocated, every exception leaks at least one node. *)
Theorem C72_leak_refuted : forall alloc base k terms left h, allocator alloc -> 2 <= k ->
  runs_to (fun fuel => try_sorted_dawg fuel alloc (Some k) base terms) (left, h, Thrown) ->
  exists p n, hget base p = None /\ hget h p = Some n.
Proof.
  intros alloc base k terms left h A L R.
  destruct (try_sorted_ok alloc base (Some k) terms A) as (b' & h' & r & E & _ & D).
  pose proof (runs_to_det _ _ _ _ R E) as X. injection X as -> -> <-. apply D.
  destruct k as [|[|k]]; try lia. discriminate.
Qed.
Print Assumptions C72_leak_refuted.

(** "Destroying a dictionary cannot fail" is false: without memory, destroying
    any dictionary ends the program. *)
Theorem C72_destructor_refuted : forall fuel h bd, exists left, try_destroy fuel (Some 0) h bd = Ok (left, None).
Proof.
  intros fuel h bd. unfold try_destroy, try_clean_up. destruct (b_work bd) as [w|]; eexists; reflexivity.
Qed.
Print Assumptions C72_destructor_refuted.

(** "A call that threw can be made again" is false: add("ac") throws when
    everything but the last assignment is done; the second call succeeds; finish()
    then deletes a node that is in use. *)
Theorem C72_retry_refuted : exists h0 bd0 h1 bd1 h2 bd2,
  new_sorted_dawg bump [] = (h0, bd0) /\
  (forall fuel, 5 <= fuel ->
    add_until fuel bump h0 (init bd0) [(lit "ab", None); (lit "ac", Some 6)] = Ok (h1, bd1, [true], Some (lit "ac")) /\
    try_add fuel bump None h1 bd1 (lit "ac") = Ok (None, h2, bd2, Some true) /\
    try_finish fuel None h2 bd2 = UB).
Proof.
  do 6 eexists. split; [vm_compute; reflexivity|]. intros fuel F.
  assert (X : exists f, fuel = S (S (S (S (S f))))) by (exists (fuel - 5); lia). destruct X as (f & ->).
  split; [vm_compute; reflexivity|].
  split; [vm_compute; reflexivity|]. lazy. reflexivity.
Qed.
Print Assumptions C72_retry_refuted.

(** ** Cases *)

(** An allocator, as the theorems require. *)
Example C72_bump_allocates : allocator bump.
Proof. exact bump_allocator. Qed.

(** "ab" is accepted; add("ac") throws when a transition has been popped; a
    finish() throws, the next one does not.  Nothing that begins with "ab" is
    left. *)
Example C72_build_case : exists h0 bd0 h1 bd1 h2 bd2,
  new_sorted_dawg bump [] = (h0, bd0) /\
  add_until 20 bump h0 (init bd0) [(lit "A", None); (lit "ab", None); (lit "ac", Some 1)] =
    Ok (h1, bd1, [true; true], Some (lit "ac")) /\
  finishes 20 h1 bd1 [Some 0; None] = Ok (h2, bd2, [false; true]) /\
  contains h2 (b_dawg bd2) (lit "A") = Ok true /\
  contains h2 (b_dawg bd2) (lit "ab") = Ok false /\
  contains h2 (b_dawg bd2) (lit "ac") = Ok false /\
  rbind (destroy 20 h2 bd2) (fun h => Ok (live h)) = Ok [].
Proof. do 6 eexists. repeat (split; [vm_compute; reflexivity|]). vm_compute. reflexivity. Qed.

(** The term whose call threw can be in the dictionary. *)
Example C72_reached_case : exists h0 bd0 h1 bd1 h2 bd2,
  new_sorted_dawg bump [] = (h0, bd0) /\
  add_until 20 bump h0 (init bd0) [(lit "ab", None); (lit "ac", Some 6)] = Ok (h1, bd1, [true], Some (lit "ac")) /\
  finishes 20 h1 bd1 [None] = Ok (h2, bd2, [true]) /\
  contains h2 (b_dawg bd2) (lit "ab") = Ok true /\
  contains h2 (b_dawg bd2) (lit "ac") = Ok true /\ d_size (b_dawg bd2) = 1%N.
Proof. do 6 eexists. repeat (split; [vm_compute; reflexivity|]). vm_compute. reflexivity. Qed.

(** One node can be left behind by the program that catches the exception. *)
Example C72_one_more_case : exists h0 bd0 h1 bd1 h2,
  new_sorted_dawg bump [] = (h0, bd0) /\
  add_until 20 bump h0 (init bd0) [(lit "ab", None); (lit "ac", Some 4)] = Ok (h1, bd1, [true], Some (lit "ac")) /\
  destroy 20 h1 bd1 = Ok h2 /\ hget h2 4%N = Some (Node false []).
Proof. do 5 eexists. repeat (split; [vm_compute; reflexivity|]). vm_compute. reflexivity. Qed.

(** The four endings. *)
Example C72_endings :
  (exists b h bd, try_sorted_dawg 20 bump (Some 32) [] [lit "ab"; lit "ac"] = Ok (b, h, Made bd)) /\
  (exists b h, try_sorted_dawg 20 bump (Some 24) [] [lit "ab"; lit "ac"] = Ok (b, h, Thrown)) /\
  (exists b h, try_sorted_dawg 20 bump (Some 17) [] [lit "b"; lit "a"] = Ok (b, h, Refused) /\ live h = []) /\
  (exists b h, try_sorted_dawg 20 bump (Some 9) [] [lit "b"; lit "a"] = Ok (b, h, Terminated)).
Proof.
  split; [do 3 eexists; vm_compute; reflexivity|]. split; [do 2 eexists; vm_compute; reflexivity|].
  split; [do 2 eexists; split; vm_compute; reflexivity|]. do 2 eexists. vm_compute. reflexivity.
Qed.
