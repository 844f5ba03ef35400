(** * Property C27: what every message, however malformed, is read as. *)
From Coq Require Import Sorting.Sorted Sorting.Permutation.
From Verif Require Import Base Spec ModelTransducer ModelDawg ModelSerial ModelQuery SpecDawg SpecSerial SpecQuery SpecSnapshot SpecForeign
  AlignProofs TransProofs StateProofs TreeProofs HeapProofs IterProofs SerialProofs QueryProofs QueryFacts SnapshotProofs WireProofs PropsDawg ForeignProofs.
Local Open Scope nat_scope.

(** Whether a message can be read without undefined behaviour, and what [contains]
    then says about every term, can be told from the numbers in the message. *)
Theorem C27_exact : forall alloc h m, allocator alloc ->
  match replay (m_nodes m) [] [] (m_edges m) with
  | None => from_protobuf alloc h m = UB
  | Some (dead, es) => exists h' b, from_protobuf alloc h m = Ok (h', b) /\
      (forall p, allocated h p -> hget h' p = hget h p) /\
      d_size (b_dawg b) = m_size m /\
      forall w, (N.of_nat (length w) <= 2147483647)%N ->
        contains h' (b_dawg b) w =
          match follow (m_nodes m) dead es (m_root m) w with
          | There i => Ok (member i (m_finals m))
          | Nowhere => Ok false
          | Dangling => UB
          end
  end.
Proof.
  intros alloc h m A. pose proof (from_protobuf_stands alloc h m A) as X.
  destruct (replay (m_nodes m) [] [] (m_edges m)) as [[dead es]|]; auto.
  destruct X as (f & h' & E & St). eexists _, _. split; [exact E|]. cbn [b_dawg d_size]. split; [|split; auto].
  - intros p Al. apply (st_rest _ _ _ _ _ _ _ St). intros i I ->. apply Al. apply (st_fresh _ _ _ _ _ _ _ St i I).
  - intros w L. apply (contains_stands _ _ _ _ _ _ _ St w (m_root m) 0%N). lia.
Qed.
Print Assumptions C27_exact.

(** Deleting what was read: undefined if an edge leads from the root to a node that
    is not listed or was deleted; otherwise it ends if and only if the walks from
    the root have bounded length (that is, there is no cycle).  If it ends, nothing
    else is touched, and memory is lost for exactly the nodes that are left and
    cannot be reached. *)
Theorem C27_destroy : forall alloc h m h' b dead es, allocator alloc ->
  replay (m_nodes m) [] [] (m_edges m) = Some (dead, es) -> from_protobuf alloc h m = Ok (h', b) ->
  let reached w i := walks (m_nodes m) dead es (m_root m) w i in
  let usable i := In i (m_nodes m) /\ ~ In i dead in
  ((exists w i, reached w i /\ ~ usable i) -> runs_into_ub (fun fuel => destroy fuel h' b)) /\
  ((forall w i, reached w i -> usable i) ->
    ((exists k, forall w i, reached w i -> length w <= k) ->
      exists h2, runs_to (fun fuel => destroy fuel h' b) h2 /\
        (forall p, allocated h p -> hget h2 p = hget h p) /\
        ((forall p, allocated h2 p -> allocated h p) <-> forall i, usable i -> exists w, reached w i) /\
        exists lost leaked, NoDup lost /\ (forall i, In i lost <-> usable i /\ ~ exists w, reached w i) /\
          NoDup leaked /\ length leaked = length lost /\
          forall p, allocated h2 p <-> allocated h p \/ In p leaked) /\
    ((forall k, exists w i, reached w i /\ k < length w) -> forall fuel, destroy fuel h' b = OOF)).
Proof.
  intros alloc h m h' b dead es A Er E reached usable. pose proof (from_protobuf_stands alloc h m A) as X. rewrite Er in X.
  destruct X as (f & h1 & E1 & St). rewrite E in E1. injection E1 as <- ->.
  split; [|intros Good; split].
  - intros (w & i & Wk & Bad). destruct (destroy_bad _ _ _ _ _ _ _ St (m_root m) (m_size m) w i Wk Bad) as (N & Y). exists N. auto.
  - intros (k & Le). destruct (destroy_ends _ _ _ _ _ _ _ St (m_root m) (m_size m) k Good Le) as (N & Y).
    pose proof (destroy_good _ _ _ _ _ _ _ St (m_root m) (m_size m) Good N) as Z.
    specialize (Y N (Nat.le_refl N)) as Y0.
    destruct (destroy N h' (Builder (Dawg (f (m_root m)) (m_size m)) [] None)) as [h2| |] eqn:Ed; try tauto.
    destruct Z as (out & Zo & Z1 & Z2 & _). exists h2. split; [exists N; intros fuel L; eapply destroy_more; eauto|].
    assert (Vi : forall p, In p out -> exists i, usable i /\ p = f i).
    { intros p V. apply Zo in V. destruct V as (w & i & Wk & ->). exists i. split; auto. eapply Good; eauto. }
    assert (Oi : forall i, usable i -> In (f i) out <-> exists w, reached w i).
    { intros i U. split; [intros V; apply Zo in V; eapply visits_usable; eauto; apply U|]. intros (w & Wk). apply Zo. exists w, i. auto. }
    split; [|split; [split|]].
    + intros p Al. rewrite Z2.
      * apply (st_rest _ _ _ _ _ _ _ St). intros i I ->. apply Al. apply (st_fresh _ _ _ _ _ _ _ St i I).
      * intros V. apply Vi in V. destruct V as (i & [I _] & ->). apply Al. apply (st_fresh _ _ _ _ _ _ _ St i I).
    + intros All i [I D]. destruct (in_dec N.eq_dec (f i) out) as [V|V].
      { apply Zo in V. eapply visits_usable; eauto. }
      exfalso. destruct (st_fresh _ _ _ _ _ _ _ St i I) as [_ Fr]. apply (All (f i)); auto. unfold allocated. rewrite Z2 by auto.
      destruct (st_node _ _ _ _ _ _ _ St i I D) as (n & G & _). congruence.
    + intros All p Al. destruct (in_dec N.eq_dec p out) as [V|V]; [exfalso; apply Al, Z1, V|].
      unfold allocated in *. rewrite Z2 in Al by auto. intros Fr.
      destruct (in_dec N.eq_dec p (map f (m_nodes m))) as [I|I].
      * apply in_map_iff in I. destruct I as (i & <- & I). destruct (in_dec N.eq_dec i dead) as [D|D].
        -- apply Al, (st_dead _ _ _ _ _ _ _ St i D).
        -- destruct (All i (conj I D)) as (w & Wk). apply V, Zo. exists w, i. auto.
      * apply Al. rewrite (st_rest _ _ _ _ _ _ _ St); auto. intros i J ->. apply I, in_map, J.
    + set (lost := filter (fun i => negb (member i dead) && negb (member (f i) out)) (nodup N.eq_dec (m_nodes m))).
      assert (Lo : forall i, In i lost <-> usable i /\ ~ In (f i) out).
      { intros i. unfold lost, usable. rewrite filter_In, nodup_In, andb_true_iff, !negb_true_iff, !member_not. tauto. }
      exists lost, (map f lost). split; [apply NoDup_filter, NoDup_nodup|]. split; [|split; [|split; [apply map_length|]]].
      * intros i. rewrite Lo. split; intros [U V]; (split; [auto|]); rewrite <- (Oi i U) in *; auto.
      * apply NoDup_map_on; [|apply NoDup_filter, NoDup_nodup]. intros i j I J. apply Lo in I. apply Lo in J.
        apply (st_inj _ _ _ _ _ _ _ St); [apply I|apply J].
      * intros p. rewrite in_map_iff. split.
        -- intros Al. destruct (in_dec N.eq_dec p out) as [V|V]; [exfalso; apply Al, Z1, V|].
           unfold allocated in Al. rewrite Z2 in Al by auto.
           destruct (in_dec N.eq_dec p (map f (m_nodes m))) as [I|I].
           ++ right. apply in_map_iff in I. destruct I as (i & <- & I). exists i. split; auto. apply Lo. split; auto. split; auto.
              intros D. apply Al, (st_dead _ _ _ _ _ _ _ St i D).
           ++ left. unfold allocated. rewrite <- (st_rest _ _ _ _ _ _ _ St); auto. intros i J ->. apply I, in_map, J.
        -- intros [Al|(i & <- & I)].
           ++ unfold allocated. rewrite Z2, (st_rest _ _ _ _ _ _ _ St); auto.
              ** intros i I ->. apply Al. apply (st_fresh _ _ _ _ _ _ _ St i I).
              ** intros V. apply Vi in V. destruct V as (i & [I _] & ->). apply Al. apply (st_fresh _ _ _ _ _ _ _ St i I).
           ++ apply Lo in I. destruct I as [[I D] V]. unfold allocated. rewrite Z2 by auto.
              destruct (st_node _ _ _ _ _ _ _ St i I D) as (n & G & _). congruence.
  - intros Unb fuel. pose proof (destroy_good _ _ _ _ _ _ _ St (m_root m) (m_size m) Good fuel) as Z.
    destruct (destroy fuel h' _) as [h2| |]; try tauto. destruct Z as (out & _ & _ & _ & Z). destruct (Unb fuel) as (w & i & Wk & L). specialize (Z _ _ Wk). lia.
Qed.
Print Assumptions C27_destroy.

(** Messages of every kind.  Node 3 of the second is deleted when its edge is
    replaced, but another edge still leads there. *)
Definition kept : message := Message [1; 2; 3]%N [2]%N [EdgeMsg 1 97 3; EdgeMsg 1 97 2] 1 1.
Definition dangling : message := Message [1; 2; 3]%N [2; 3]%N [EdgeMsg 1 98 3; EdgeMsg 1 97 3; EdgeMsg 1 97 2] 1 2.
Definition missing : message := Message [1]%N [] [EdgeMsg 1 97 7] 1 0.
Definition lost : message := Message [1; 2]%N [1]%N [] 1 1.
Definition looping : message := Message [1; 2]%N [1]%N [EdgeMsg 1 97 2; EdgeMsg 2 98 1] 1 1.
Definition broken : message := Message [1; 2]%N [] [EdgeMsg 1 97 1; EdgeMsg 1 97 2] 1 0.

Definition replayed (m : message) := replay (m_nodes m) [] [] (m_edges m).

Example C27_exact_case :
  replayed kept = Some ([3]%N, [EdgeMsg 1 97 2; EdgeMsg 1 97 3]) /\
  replayed dangling = Some ([3]%N, [EdgeMsg 1 97 2; EdgeMsg 1 97 3; EdgeMsg 1 98 3]) /\
  replayed missing = Some ([], m_edges missing) /\
  replayed lost = Some ([], []) /\
  replayed looping = Some ([], [EdgeMsg 2 98 1; EdgeMsg 1 97 2]) /\
  replayed broken = None /\
  (forall alloc h, allocator alloc -> from_protobuf alloc h broken = UB) /\
  (forall alloc h, allocator alloc -> exists h' b, from_protobuf alloc h dangling = Ok (h', b) /\
     contains h' (b_dawg b) (lit "a") = Ok true /\ contains h' (b_dawg b) (lit "b") = UB /\ contains h' (b_dawg b) (lit "c") = Ok false).
Proof.
  do 6 (split; [reflexivity|]). split.
  - intros alloc h A. pose proof (C27_exact alloc h broken A) as X. exact X.
  - intros alloc h A. pose proof (C27_exact alloc h dangling A) as X.
    destruct X as (h' & b & E & _ & _ & C). exists h', b. split; [exact E|].
    repeat split; (rewrite C; [reflexivity|vm_compute; discriminate]).
Qed.

(** Deleting: [kept] is deleted completely, [dangling] and [missing] are not, [lost]
    loses a node, and [looping] never ends. *)
Example C27_destroy_case : forall alloc h, allocator alloc ->
  (exists h' b h2, from_protobuf alloc h kept = Ok (h', b) /\ runs_to (fun fuel => destroy fuel h' b) h2 /\ forall p, allocated h2 p <-> allocated h p) /\
  (exists h' b, from_protobuf alloc h dangling = Ok (h', b) /\ runs_into_ub (fun fuel => destroy fuel h' b)) /\
  (exists h' b, from_protobuf alloc h missing = Ok (h', b) /\ runs_into_ub (fun fuel => destroy fuel h' b)) /\
  (exists h' b h2, from_protobuf alloc h lost = Ok (h', b) /\ runs_to (fun fuel => destroy fuel h' b) h2 /\ ~ forall p, allocated h2 p -> allocated h p) /\
  (exists h' b, from_protobuf alloc h looping = Ok (h', b) /\ forall fuel, destroy fuel h' b = OOF).
Proof.
  intros alloc h A. split; [|split; [|split; [|split]]].
  - destruct (C27_exact alloc h kept A) as (h' & b & E & _).
    destruct (C27_destroy alloc h kept h' b _ _ A eq_refl E) as (_ & X).
    assert (W : forall w i, walks [1; 2; 3]%N [3]%N [EdgeMsg 1 97 2; EdgeMsg 1 97 3] 1%N w i -> (i = 1%N \/ i = 2%N) /\ length w <= 1).
    { assert (W2 : forall w i, walks [1; 2; 3]%N [3]%N [EdgeMsg 1 97 2; EdgeMsg 1 97 3] 2%N w i -> i = 2%N /\ w = []).
      { intros w i Wk. inversion Wk as [|? ? e ? ? _ _ L _]; subst; auto. cbn in L. discriminate. }
      intros w i Wk. inversion Wk as [|? c e w' ? _ _ L Wk']; subst; [split; [auto|cbn; lia]|].
      rewrite !leaving_cons in L. cbn [em_source em_label] in L. destruct (_ && _) in L; [injection L as <-|discriminate].
      apply W2 in Wk'. destruct Wk' as [-> ->]. split; [auto|cbn; lia]. }
    cbn [em_target] in X.
    destruct X as [X _]. { intros w i Wk. destruct (W w i Wk) as [[->| ->] _]; cbn; split; auto; intros [Y|[]]; discriminate. }
    destruct X as (h2 & R & O & F & _). { exists 1. intros w i Wk. apply (W w i Wk). }
    exists h', b, h2. split; [exact E|]. split; [exact R|]. intros p. split; [|intros Al; unfold allocated in *; rewrite O; auto].
    apply F. intros i [I D]. cbn in I, D. destruct I as [<-|[<-|[<-|[]]]]; [exists []; constructor| |exfalso; auto].
    exists [("a"%char)]. econstructor; [left; reflexivity| |reflexivity|constructor]. intros [Y|[]]; discriminate.
  - destruct (C27_exact alloc h dangling A) as (h' & b & E & _). exists h', b. split; [exact E|].
    destruct (C27_destroy alloc h dangling h' b _ _ A eq_refl E) as (X & _). apply X.
    exists ["b"%char], 3%N. split; [|cbn; tauto]. econstructor; [left; reflexivity| |reflexivity|constructor]. intros [Y|[]]; discriminate.
  - destruct (C27_exact alloc h missing A) as (h' & b & E & _). exists h', b. split; [exact E|].
    destruct (C27_destroy alloc h missing h' b _ _ A eq_refl E) as (X & _). apply X.
    exists ["a"%char], 7%N. split; [|cbn; intros [[Y|[]] _]; discriminate]. econstructor; [left; reflexivity| |reflexivity|constructor]. intros [].
  - destruct (C27_exact alloc h lost A) as (h' & b & E & _).
    destruct (C27_destroy alloc h lost h' b _ _ A eq_refl E) as (_ & X).
    assert (W : forall w i, walks [1; 2]%N [] [] 1%N w i -> i = 1%N /\ w = []).
    { intros w i Wk. inversion Wk as [|? c e w' ? _ _ L Wk']; subst; auto. discriminate. }
    destruct X as [X _]. { intros w i Wk. destruct (W w i Wk) as [-> _]. cbn; auto. }
    destruct X as (h2 & R & O & F & _). { exists 0. intros w i Wk. destruct (W w i Wk) as [_ ->]. cbn; lia. }
    exists h', b, h2. split; [exact E|]. split; [exact R|]. intros All. destruct (proj1 F All 2%N) as (w & Wk); [cbn; auto|].
    destruct (W _ _ Wk); discriminate.
  - destruct (C27_exact alloc h looping A) as (h' & b & E & _). exists h', b. split; [exact E|].
    destruct (C27_destroy alloc h looping h' b _ _ A eq_refl E) as (_ & X).
    assert (W : forall w i j, walks [1; 2]%N [] [EdgeMsg 2 98 1; EdgeMsg 1 97 2] i w j -> i = 1%N \/ i = 2%N -> j = 1%N \/ j = 2%N).
    { intros w i j Wk. induction Wk as [|i c e w j _ _ L _ IH]; auto. intros _. apply IH. rewrite !leaving_cons in L.
      destruct (_ && _) in L; [injection L as <-; cbn; auto|]. destruct (_ && _) in L; [injection L as <-; cbn; auto|discriminate]. }
    apply X.
    + intros w i Wk. destruct (W _ _ _ Wk); auto; subst; cbn; auto.
    + assert (Y : forall k, exists w, walks [1; 2]%N [] [EdgeMsg 2 98 1; EdgeMsg 1 97 2] 1%N w 1%N /\ k <= length w).
      { induction k as [|k (w & Wk & L)]; [exists []; split; [constructor|cbn; lia]|].
        exists ("a"%char :: "b"%char :: w). split; [|cbn; lia].
        econstructor; [left; reflexivity|intros []|reflexivity|]. econstructor; [right; left; reflexivity|intros []|reflexivity|]. exact Wk. }
      intros k. destruct (Y (S k)) as (w & Wk & L). exists w, 1%N. auto.
Qed.

(** ** Looking into what was read.  A message whose walks from the root meet only
    usable nodes and have bounded length need not be one this library wrote: there
    may be dead ends, unreachable nodes and equivalent nodes.  It is queried and
    listed correctly all the same. *)
Theorem C27_query : forall R (rt : result_type R) alg alloc h m h' b dead es k x n, allocator alloc ->
  replay (m_nodes m) [] [] (m_edges m) = Some (dead, es) -> from_protobuf alloc h m = Ok (h', b) ->
  (forall w i, walks (m_nodes m) dead es (m_root m) w i -> In i (m_nodes m) /\ ~ In i dead) ->
  (forall w i, walks (m_nodes m) dead es (m_root m) w i -> length w <= k) -> (N.of_nat k < 2 ^ 62)%N ->
  manageable x n -> (n <= SIZE_MAX)%N ->
  exists answers,
    lists alg x n (fun w => exists i, walks (m_nodes m) dead es (m_root m) w i /\ In i (m_finals m)) answers /\
    yields rt alg h' (b_dawg b) x n (map (fun a => r_update rt (fst a) (snd a)) answers).
Proof.
  intros R rt alg alloc h m h' b dead es k x n A Er E Good Le Lk Lx Ln. pose proof (from_protobuf_stands alloc h m A) as X. rewrite Er in X.
  destruct X as (f & h1 & E1 & St). rewrite E in E1. injection E1 as <- ->. cbn [b_dawg d_root].
  destruct (stands_unf _ _ _ _ _ _ _ St k (m_root m) Good Le) as (t & U & Hh & Ti).
  exists (graded alg x n t). split; [apply graded_lists; auto; exact (proj1 (HeapProofs.unf_tsorted h') _ _ U)|].
  destruct (query_all_ok rt h' alg x n k Lx Ln Lk _ t U Hh) as (M & Q). exists (S M). intros fuel Hf.
  unfold query_all, begin_query. cbn [new_transducer tr_alg tr_root d_root].
  rewrite Q by lia. unfold graded. rewrite map_map. reflexivity.
Qed.
Print Assumptions C27_query.

Lemma emitted_firstn : forall n m v l, n <= m -> emitted n v l = firstn n ((v :: l) ++ repeat (List.last (v :: l) []) m).
Proof.
  induction n as [|n IH]; intros m v l L; [reflexivity|]. cbn [emitted app firstn]. f_equal. destruct l as [|w l]; cbn [next_value tl].
  - destruct m as [|m]; [lia|]. rewrite (IH m v []) by lia. reflexivity.
  - rewrite (IH m w l) by lia. reflexivity.
Qed.

Lemma firstn_repeat_le : forall A (a : A) n m, n <= m -> firstn n (repeat a m) = repeat a n.
Proof. induction n as [|n IH]; intros [|m] L; try lia; auto. cbn. f_equal. apply IH. lia. Qed.

(** Iterating lists as many terms as the message says there are: its terms in order,
    and if there are fewer, the last one again and again. *)
Theorem C27_iterate : forall alloc h m h' b dead es k, allocator alloc ->
  replay (m_nodes m) [] [] (m_edges m) = Some (dead, es) -> from_protobuf alloc h m = Ok (h', b) ->
  (forall w i, walks (m_nodes m) dead es (m_root m) w i -> In i (m_nodes m) /\ ~ In i dead) ->
  (forall w i, walks (m_nodes m) dead es (m_root m) w i -> length w <= k) -> (m_size m < 2 ^ 64)%N ->
  exists terms, sorted_by shortlex_lt terms /\
    (forall w, In w terms <-> exists i, walks (m_nodes m) dead es (m_root m) w i /\ In i (m_finals m)) /\
    runs_to (fun fuel => iterate fuel h' (b_dawg b))
      (firstn (N.to_nat (m_size m)) (terms ++ repeat (List.last terms []) (N.to_nat (m_size m)))).
Proof.
  intros alloc h m h' b dead es k A Er E Good Le Lm. pose proof (from_protobuf_stands alloc h m A) as X. rewrite Er in X.
  destruct X as (f & h1 & E1 & St). rewrite E in E1. injection E1 as <- ->. cbn [b_dawg].
  destruct (stands_unf _ _ _ _ _ _ _ St k (m_root m) Good Le) as (t & U & Hh & Ti).
  pose proof (proj1 (HeapProofs.unf_tsorted h') _ _ U) as So.
  exists (words t). split; [apply StronglySorted_sorted_by, words_sorted, So|]. split; [intros w; rewrite words_In by auto; apply Ti|].
  exists (tsize t + N.to_nat (m_size m) + 2). intros fuel Hf.
  rewrite (iterate_ok fuel h' _ t (N.to_nat (m_size m))); auto; try (cbn [d_size]; lia).
  f_equal. destruct (words t) as [|w l]; cbn [next_value tl].
  - rewrite (emitted_firstn _ (N.to_nat (m_size m))) by lia. cbn [app List.last]. change ([] :: repeat [] ?n) with (repeat (@nil ascii) (S n)).
    rewrite !firstn_repeat_le by lia. reflexivity.
  - rewrite (emitted_firstn _ (N.to_nat (m_size m))) by lia. reflexivity.
Qed.
Print Assumptions C27_iterate.

(** A message with a dead end (3), a node nothing leads to (4), two equivalent nodes
    (2 and 5), and a wrong number of terms. *)
Definition foreign : message :=
  Message [1; 2; 3; 4; 5]%N [2; 5]%N [EdgeMsg 1 97 2; EdgeMsg 1 98 5; EdgeMsg 2 99 3; EdgeMsg 5 97 2] 1 4.

Example C27_query_case :
  replayed foreign = Some ([], rev (m_edges foreign)) /\
  (forall w i, walks (m_nodes foreign) [] (rev (m_edges foreign)) (m_root foreign) w i -> (In i (m_nodes foreign) /\ ~ In i []) /\ length w <= 3) /\
  exists h b, from_protobuf bump [] foreign = Ok (h, b) /\
    iterate 20 h (b_dawg b) = Ok [lit "a"; lit "b"; lit "ba"; lit "ba"] /\
    query_all as_candidate 40 h (new_transducer STANDARD (d_root (b_dawg b))) (lit "ab") 1 = Ok [(lit "a", 1%N); (lit "b", 1%N)].
Proof.
  split; [reflexivity|]. split.
  - assert (W : forall w i j, walks (m_nodes foreign) [] (rev (m_edges foreign)) i w j ->
      (i = 3%N -> j = 3%N /\ length w <= 0) /\ (i = 2%N -> (j = 2%N \/ j = 3%N) /\ length w <= 1) /\
      (i = 5%N -> (j = 5%N \/ j = 2%N \/ j = 3%N) /\ length w <= 2) /\ (i = 1%N -> (j = 1%N \/ j = 5%N \/ j = 2%N \/ j = 3%N) /\ length w <= 3)).
    { intros w i j Wk. induction Wk as [i|i c e w j _ _ L _ IH]; [cbn [length]; intuition lia|].
      cbn [foreign m_edges rev app] in L. rewrite !leaving_cons in L. cbn [em_source] in L. cbn [length].
      split; [|split; [|split]]; intros ->; cbn [N.eqb Pos.eqb andb] in L.
      all: repeat (destruct (ceqb _ c) in L; [injection L as <-; cbn [em_target] in IH; intuition lia|]); discriminate. }
    intros w i Wk. destruct (W _ _ _ Wk) as (_ & _ & _ & X). destruct (X eq_refl) as [Y L]. split; auto. cbn. intuition lia.
  - eexists _, _. split; [vm_compute; reflexivity|]. split; vm_compute; reflexivity.
Qed.
