(** * Property C87: several dictionaries in one stream. *)
From Coq Require Import Sorting.Sorted Sorting.Permutation.
From Verif Require Import Base Spec ModelTransducer ModelDawg ModelSerial ModelWire ModelQuery SpecDawg SpecSerial SpecQuery SpecSnapshot SpecWire
  SpecForeign SpecStream
  TreeProofs HeapProofs IterProofs BuildProofs2 DawgProofs SerialProofs QueryProofs QueryFacts WireProofs FileProofs ForeignProofs
  PropsDawg PropsQuery PropsSerial PropsWire PropsForeign StreamProofs.
Local Open Scope nat_scope.

Lemma messages_of h ds : Forall (fun d => exists terms, dictionary terms h d) ds -> addresses_fit h ->
  exists ms, Forall2 (fun d m => runs_to (fun fuel => to_protobuf fuel h d) m) ds ms /\
    Forall2 (fun d m => describes h d m /\ in_range m /\ well_formed m /\ NoDup (m_nodes m) /\ m_root m <> 0%N) ds ms.
Proof.
  intros F Af. induction F as [|d ds (terms & D) _ (ms & F1 & F2)]; [exists []; auto|].
  destruct (dictionary_unf _ _ _ D) as (U & _). destruct (to_protobuf_all h d _ U) as (m & R & De).
  destruct (dictionary_message _ _ _ _ D Af R) as (Ra & Rt & Nd & _ & Wf). exists (m :: ms). split; constructor; auto.
Qed.

Lemma messages_apart h ds ms (P : dawg -> message -> Prop) : (forall d m, P d m -> describes h d m) -> Forall2 P ds ms ->
  ForallOrdPairs (apart h) ds -> ForallOrdPairs node_apart ms.
Proof.
  intros De F Ap. revert ms F. induction Ap as [|d ds Fa _ IH]; intros ms F; inversion F as [|? m ? ms' Pm F']; subst; constructor; auto.
  clear - De Pm F' Fa. induction F' as [|d' m' ds ms P' _ IH]; constructor; inversion Fa; subst; auto.
  intros i [I J]. apply (H1 i). split; [apply (ds_nodes _ _ _ (De _ _ Pm)), I|apply (ds_nodes _ _ _ (De _ _ P')), J].
Qed.

(** Messages do not say where they end.  If several dictionaries without common
    nodes are written to one stream, what is read from it is the last of them, only
    that its size is 0 never counts: then it is the size of an earlier one, and
    iterating repeats the empty term.  The nodes of all the others are created as
    well; nothing leads to them, and they are lost when the dictionary is deleted. *)
Theorem C87_last : forall h ds d terms size split room results f alloc h1,
  Forall (fun d' => exists terms', dictionary terms' h d') ds -> dictionary terms h d -> ForallOrdPairs (apart h) (ds ++ [d]) ->
  addresses_fit h -> splitter split -> allocator alloc ->
  runs_to (fun fuel => save_all fuel size split (opened room) h (ds ++ [d])) (results, f) -> Forall (eq true) results ->
  (N.of_nat (length (contents f)) < room)%N -> (N.of_nat (length (contents f)) <= INT_MAX)%N ->
  exists h2 b, deserialize_file alloc h1 (Some (contents f)) = Ok (h2, Some b) /\
    (forall p, allocated h1 p -> hget h2 p = hget h1 p) /\
    d_size (b_dawg b) = last_nonzero (map d_size (ds ++ [d])) /\
    (forall w, (N.of_nat (length w) <= INT_MAX)%N -> contains h2 (b_dawg b) w = contains h d w) /\
    (forall R (rt : result_type R) alg x n, within_limits terms x n -> exists answers,
      lists alg x n (fun w => In w terms) answers /\
      yields rt alg h2 (b_dawg b) x n (map (fun a => r_update rt (fst a) (snd a)) answers)) /\
    (exists listing, sorted_by shortlex_lt listing /\ (forall w, In w listing <-> In w terms) /\
      let count := N.to_nat (d_size (b_dawg b)) in
      runs_to (fun fuel => iterate fuel h2 (b_dawg b)) (firstn count (listing ++ repeat (List.last listing []) count))) /\
    exists h3 leaked lost, runs_to (fun fuel => destroy fuel h2 b) h3 /\
      (forall p, allocated h1 p -> hget h3 p = hget h1 p) /\
      NoDup leaked /\ (forall p, allocated h3 p <-> allocated h1 p \/ In p leaked) /\
      NoDup lost /\ length leaked = length lost /\
      forall p, In p lost <-> exists d', In d' ds /\ reach h (d_root d') p.
Proof.
  intros h ds d terms size split room results f alloc h1 Ds D Ap Af Sp A Rs T Lr Lm.
  destruct (dictionary_unf _ _ _ D) as (U & _ & S).
  assert (All : Forall (fun d' => exists terms', dictionary terms' h d') (ds ++ [d])) by (apply Forall_app; split; eauto).
  destruct (messages_of h (ds ++ [d]) All Af) as (ms' & F1 & F2).
  pose proof (saved_bytes _ _ _ _ _ _ _ _ Sp F1 Rs T Lr) as Ec. rewrite Ec in Lm |- *.
  pose proof (messages_apart h _ _ _ (fun d m P => proj1 P) F2 Ap) as Am.
  assert (Ws : Forall well_formed ms') by (clear - F2; induction F2; constructor; tauto).
  assert (Rg : Forall in_range ms') by (clear - F2; induction F2; constructor; tauto).
  pose proof (decode_all ms' Rg Lm) as Ed. pose proof (keys_apart ms' Ws Am) as Nk. pose proof (sources_listed ms' Ws) as Sl.
  apply Forall2_app_inv_l in F2. destruct F2 as (ms & l & F2 & Fl & El).
  inversion Fl as [|? m ? l' (De & Ra & Wf & Nn & Rt) Fn]; subst l. inversion Fn; subst l'. clear Fl Fn. subst ms'.
  set (M := fold_left joined (ms ++ [m]) empty_message) in *.
  assert (Mn : m_nodes M = flat_map m_nodes ms ++ m_nodes m) by (unfold M; rewrite joined_nodes, flat_map_snoc; auto).
  assert (Mf : m_finals M = flat_map m_finals ms ++ m_finals m) by (unfold M; rewrite joined_finals, flat_map_snoc; auto).
  assert (Me : m_edges M = flat_map m_edges (ms ++ [m])) by (unfold M; rewrite joined_edges; auto).
  assert (Mr : m_root M = d_root d).
  { unfold M. rewrite fold_left_app. cbn. destruct (N.eqb_spec (m_root m) 0); [congruence|]. apply (ds_root _ _ _ De). }
  assert (Ms : m_size M = last_nonzero (map d_size (ds ++ [d]))).
  { unfold M. rewrite joined_size. cbn [m_size empty_message]. unfold last_nonzero. f_equal. rewrite !map_app. cbn [map].
    rewrite (ds_size _ _ _ De). f_equal. clear - F2. induction F2 as [|x1 y1 k k' (X & _) _ IH]; cbn [map]; [auto|]. rewrite (ds_size _ _ _ X), IH. auto. }
  assert (Er : replay (m_nodes M) [] [] (m_edges M) = Some ([], rev (m_edges M))).
  { rewrite replay_distinct; [rewrite app_nil_r; auto|cbn; rewrite Me; auto|]. intros e I. rewrite Me in I. apply Sl in I.
    rewrite flat_map_snoc in I. rewrite Mn. auto. }
  pose proof (pairs_snoc _ _ _ Am) as Al.
  assert (Own : forall e, In e (rev (m_edges M)) -> In (em_source e) (m_nodes m) -> In e (m_edges m)).
  { intros e I J. apply in_rev in I. rewrite Me, flat_map_snoc in I. apply in_app_iff in I. destruct I as [I|I]; auto. exfalso.
    apply in_flat_map in I. destruct I as (mx & Ix & I). apply (Al mx Ix (em_source e)). split; auto. rewrite Forall_app, Forall_forall in Ws.
    apply (wf_source _ (proj1 Ws mx Ix) e I). }
  assert (Nd : NoDup (map edge_key (rev (m_edges M)))) by (rewrite map_rev, Me; apply NoDup_rev; auto).
  assert (Wp : forall w j, walks (m_nodes M) [] (rev (m_edges M)) (m_root M) w j <-> path h (d_root d) w j).
  { intros w j. rewrite Mr. apply (walks_path h d m); auto; [intros e0 I; rewrite Mn; apply in_or_app; auto| |apply reach_refl].
    intros e0 I. rewrite <- in_rev, Me, flat_map_snoc. apply in_or_app. auto. }
  assert (Good : forall w i, walks (m_nodes M) [] (rev (m_edges M)) (m_root M) w i -> In i (m_nodes M) /\ ~ In i []).
  { intros w i Wk. split; [|intros []]. rewrite Mn. apply in_or_app. right. apply (ds_nodes _ _ _ De). exists w. apply Wp, Wk. }
  assert (Le : forall w i, walks (m_nodes M) [] (rev (m_edges M)) (m_root M) w i -> length w < height (trie terms)).
  { intros w i Wk. apply Wp in Wk. eapply path_height; eauto. }
  assert (Ti : forall w, (exists i, walks (m_nodes M) [] (rev (m_edges M)) (m_root M) w i /\ In i (m_finals M)) <-> In w terms).
  { intros w. rewrite <- tin_trie, <- (accepts_tin h _ _ w U). unfold accepts_from. split.
    - intros (i & Wk & I). apply Wp in Wk. rewrite Mf in I. apply in_app_iff in I. destruct I as [I|I].
      + exfalso. apply in_flat_map in I. destruct I as (mx & Ix & I). apply (Al mx Ix i). split.
        * clear - F2 Ix I. induction F2 as [|? ? ? ? (X & _) _ IH]; [destruct Ix|]. destruct Ix as [->|Ix]; auto.
          apply (ds_nodes _ _ _ X). apply (ds_finals _ _ _ X), I.
        * apply (ds_nodes _ _ _ De). exists w. auto.
      + apply (ds_finals _ _ _ De) in I. destruct I as (_ & n & G & Fi). eauto.
    - intros (q & n & Pa & G & Fi). exists q. split; [apply Wp; auto|]. rewrite Mf. apply in_or_app. right.
      apply (ds_finals _ _ _ De). split; [exists w; auto|eauto]. }
  assert (Sm : (m_size M < 2 ^ 64)%N).
  { unfold M. rewrite joined_size. assert (X : (m_size empty_message < 2 ^ 64)%N) by reflexivity. revert X. generalize (m_size empty_message).
    clear - Rg. induction Rg as [|x l Rx _ IH]; intros n Ln; cbn [map fold_left]; auto. apply IH. destruct (m_size x =? 0)%N; auto. apply (ir_size _ Rx). }
  pose proof (from_protobuf_stands alloc h1 M A) as X. rewrite Er in X. destruct X as (g & h2 & E & St).
  destruct (stands_unf _ _ _ _ _ _ _ St (height (trie terms)) (m_root M) Good) as (t & Ut & _ & Tt).
  { intros w i Wk. apply Le in Wk. lia. }
  eexists h2, _. split; [unfold deserialize_file, parse_from; rewrite Ed; cbn [rbind deserialize]; rewrite E; reflexivity|].
  cbn [b_dawg d_size]. split.
  { intros p Al1. apply (st_rest _ _ _ _ _ _ _ St). intros i I ->. apply Al1. apply (st_fresh _ _ _ _ _ _ _ St i I). }
  split; [exact Ms|]. split; [|split; [|split]].
  - intros w Lw. rewrite (contains_ok _ _ _ w U Lw), (contains_ok _ (Dawg _ _) _ w Ut Lw). f_equal.
    destruct (tin t w) eqn:E1, (tin (trie terms) w) eqn:E2; auto.
    + apply Tt, Ti, tin_trie in E1. congruence.
    + apply tin_trie, Ti, Tt in E2. congruence.
  - intros R rt alg q n (Lx & Ln & Lt). destruct (longest terms (fun k => (N.of_nat k < 2 ^ 62)%N)) as (B & SB & HB); [reflexivity|exact Lt|].
    destruct (C27_query R rt alg alloc h1 M h2 _ [] _ B q n A Er E Good) as (answers & Li & Y); auto.
    { intros w i Wk. apply Le in Wk. pose proof (trie_height terms B HB). lia. }
    exists answers. split; auto. destruct Li as (N1 & N2). split; auto. intros w e. rewrite N2, Ti. tauto.
  - destruct (C27_iterate alloc h1 M h2 _ [] _ (height (trie terms)) A Er E Good) as (listing & So & Li & Y); auto.
    { intros w i Wk. apply Le in Wk. lia. }
    exists listing. split; auto. split; [intros w; rewrite Li; apply Ti|]. exact Y.
  - destruct (C27_destroy alloc h1 M h2 _ [] (rev (m_edges M)) A Er E) as (_ & X). destruct (X Good) as (Y & _). clear X.
    destruct Y as (h3 & Rd & K3 & _ & lost & leaked & Nl & Il & Nq & Ll & Aq).
    { exists (height (trie terms)). intros w i Wk. apply Le in Wk. lia. }
    exists h3, leaked, lost. split; auto. split; auto. split; auto. split; auto. split; auto. split; auto.
    intros p. rewrite Il. split.
    + intros ((I & _) & Nw). rewrite Mn in I. apply in_app_iff in I. destruct I as [I|I].
      * clear - F2 I. induction F2 as [|x y k k' (X & _) _ IH]; [destruct I|]. cbn [flat_map] in I. apply in_app_iff in I. destruct I as [I|I].
        -- exists x. split; [left; auto|]. apply (ds_nodes _ _ _ X), I.
        -- destruct (IH I) as (d' & J & K). exists d'. split; [right; auto|auto].
      * exfalso. apply Nw. apply (ds_nodes _ _ _ De) in I. destruct I as (w & Pa). exists w. apply Wp, Pa.
    + intros (d' & I & Rp). split.
      * split; [|intros []]. rewrite Mn. apply in_or_app. left. clear - F2 I Rp. induction F2 as [|x y k k' (X & _) _ IH]; [destruct I|].
        cbn [flat_map]. apply in_or_app. destruct I as [->|I]; auto. left. apply (ds_nodes _ _ _ X), Rp.
      * intros (w & Wk). apply Wp in Wk. apply (pairs_snoc _ _ _ Ap d' I p). split; auto. exists w. auto.
Qed.
Print Assumptions C87_last.

(** Writing one dictionary to a stream twice makes the stream useless, unless it
    holds no term but perhaps the empty one: reading it is undefined behaviour, or
    looking up any string that begins as some term does, and deleting what was read. *)
Theorem C87_twice : forall h d terms size split room results f alloc h1,
  dictionary terms h d -> addresses_fit h -> splitter split -> allocator alloc ->
  runs_to (fun fuel => save_all fuel size split (opened room) h [d; d]) (results, f) -> Forall (eq true) results ->
  (N.of_nat (length (contents f)) < room)%N -> (N.of_nat (length (contents f)) <= INT_MAX)%N ->
  (exists c w, In (c :: w) terms) ->
  deserialize_file alloc h1 (Some (contents f)) = UB \/
  exists h2 b, deserialize_file alloc h1 (Some (contents f)) = Ok (h2, Some b) /\
    (forall c w w', In (c :: w) terms -> (N.of_nat (length (c :: w')) <= INT_MAX)%N -> contains h2 (b_dawg b) (c :: w') = UB) /\
    runs_into_ub (fun fuel => destroy fuel h2 b).
Proof.
  intros h d terms size split room results f alloc h1 D Af Sp A Rs T Lr Lm (c0 & w0 & I0).
  destruct (dictionary_unf _ _ _ D) as (U & _ & S). destruct (to_protobuf_all h d _ U) as (m & R & De).
  destruct (dictionary_message _ _ _ _ D Af R) as (Ra & Rt & Nd & _ & Wf).
  assert (F : Forall2 (fun d m => runs_to (fun fuel => to_protobuf fuel h d) m) [d; d] [m; m]) by auto.
  pose proof (saved_bytes _ _ _ _ _ _ _ _ Sp F Rs T Lr) as Ec. rewrite Ec in Lm |- *.
  pose proof (decode_all [m; m] ltac:(auto) Lm) as Ed.
  set (M := fold_left joined [m; m] empty_message) in *.
  assert (Mn : m_nodes M = m_nodes m ++ m_nodes m) by reflexivity. assert (Me : m_edges M = m_edges m ++ m_edges m) by reflexivity.
  assert (Mr : m_root M = m_root m) by (unfold M; cbn; destruct (N.eqb_spec (m_root m) 0); congruence).
  assert (Tn : forall e, In e (m_edges m) -> In (em_target e) (m_nodes M)) by (intros e I; rewrite Mn; apply in_or_app; left; apply (wf_target _ Wf e I)).
  assert (Nk : NoDup (map edge_key (m_edges m))) by exact (wf_keys _ Wf).
  pose proof (C27_exact alloc h1 M A) as X. rewrite Me, replay_app, (replay_distinct (m_nodes M) (m_edges m) []) in X; auto;
    [|intros e I; rewrite Mn; apply in_or_app; left; apply (wf_source _ Wf e I)]. rewrite app_nil_r in X.
  pose proof (replay_again (m_nodes M) (m_edges m) Nk Tn (m_edges m) (rev (m_edges m)) []) as Y.
  unfold deserialize_file, parse_from. rewrite Ed. cbn [rbind deserialize].
  destruct (replay (m_nodes M) [] (rev (m_edges m)) (m_edges m)) as [[dead es]|] eqn:Er; [|left; rewrite X; reflexivity].
  destruct Y as (_ & Y1 & Y2 & Y3); [intros x; auto|intros x I; rewrite <- in_rev; auto|intros x I; rewrite in_rev; auto|auto|].
  destruct X as (h2 & b & E & _ & _ & Co). right. exists h2, b. split; [rewrite E; reflexivity|].
  assert (Rn : In (m_root M) (m_nodes M)) by (rewrite Mr, Mn; apply in_or_app; left; apply (wf_root _ Wf)).
  assert (Out : forall c w, In (c :: w) terms -> exists e, leaving (m_root M) c es = Some e /\ In (em_target e) (m_nodes M) /\ In (em_target e) dead).
  { intros c w I. apply tin_trie in I. apply (accepts_tin h _ _ _ U) in I. destruct I as (q & n & Pa & _).
    inversion Pa as [|? n0 ? q0 ? ? G Iq _]; subst.
    assert (Ie : In (EdgeMsg (d_root d) (label_to_msg c) q0) (m_edges m)).
    { apply (ds_edges _ _ _ De). exists (d_root d), c, q0. split; auto. split; [apply reach_refl|eauto]. }
    pose proof (leaving_spec (m_root M) c es) as L. rewrite Mr, (ds_root _ _ _ De) in L |- *.
    destruct (leaving (d_root d) c es) as [e|].
    - exists e. destruct L as [L _]. apply Y2 in L. auto.
    - exfalso. apply (L _ (Y1 _ Ie)). unfold edge_key. cbn. rewrite label_round. auto. }
  split.
  - intros c w w' I L. rewrite Co by exact L. destruct (Out c w I) as (e & Le & Ln & Ld). cbn [follow].
    rewrite (proj2 (member_In _ _) Rn). cbn [negb]. destruct (member (m_root M) dead); auto. rewrite Le.
    destruct w' as [|c' w']; cbn [follow]; rewrite (proj2 (member_In _ _) Ln), (proj2 (member_In _ _) Ld); reflexivity.
  - destruct (Out c0 w0 I0) as (e & Le & Ln & Ld).
    destruct (C27_destroy alloc h1 M h2 b dead es A) as (X & _); auto.
    { rewrite Me, replay_app, (replay_distinct (m_nodes M) (m_edges m) []); auto; [rewrite app_nil_r; exact Er|].
      intros x I; rewrite Mn; apply in_or_app; left; apply (wf_source _ Wf x I). }
    apply X. destruct (in_dec N.eq_dec (m_root M) dead) as [Dr|Dr].
    + exists [], (m_root M). split; [constructor|tauto].
    + exists [c0], (em_target e). split; [|tauto]. econstructor; eauto. constructor.
Qed.
Print Assumptions C87_twice.

(** A second dictionary and an empty one are built beside the example. *)
Definition beside_heap : heap :=
  match sorted_dawg 20 SpecDawg.bump example_heap [sa; sab] with
  | Ok (h, _) => match sorted_dawg 20 SpecDawg.bump h [] with Ok (h', _) => h' | _ => [] end
  | _ => []
  end.
Definition second : dawg := Dawg 8%N 2%N.
Definition none : dawg := Dawg 11%N 0%N.

Lemma reach_within h l p q : forallb (fun x => match hget h x with
    | Some n => forallb (fun e => member (snd e) l) (nedges n) | None => true end) l = true ->
  In p l -> reach h p q -> In q l.
Proof.
  intros C I (w & Pa). induction Pa as [|p n c q w r G E Pa IH]; auto. apply IH. rewrite forallb_forall in C. specialize (C p I).
  rewrite G, forallb_forall in C. specialize (C _ E). apply member_In. exact C.
Qed.

Example beside_dictionaries : dictionary some_terms beside_heap example_dawg /\ dictionary [sa; sab] beside_heap second /\
  dictionary [] beside_heap none /\ ForallOrdPairs (apart beside_heap) [example_dawg; second; none] /\ addresses_fit beside_heap.
Proof.
  assert (W1 : forall q, reach beside_heap 1%N q -> In q [1; 2; 3; 4; 5]%N) by (intros q; apply reach_within; [reflexivity|cbn; auto]).
  assert (W2 : forall q, reach beside_heap 8%N q -> In q [8; 9; 10]%N) by (intros q; apply reach_within; [reflexivity|cbn; auto]).
  assert (W3 : forall q, reach beside_heap 11%N q -> In q [11]%N) by (intros q; apply reach_within; [reflexivity|cbn; auto]).
  assert (E1 : exists b, runs_to (fun fuel => sorted_dawg fuel SpecDawg.bump example_heap [sa; sab]) (skipn 1 beside_heap, Some b) /\ b_dawg b = second).
  { exists (Builder second sab None). split; [|reflexivity]. exists 20. intros fuel H. do 20 (destruct fuel as [|fuel]; [lia|]). vm_compute. reflexivity. }
  assert (E2 : exists b, runs_to (fun fuel => sorted_dawg fuel SpecDawg.bump (skipn 1 beside_heap) []) (beside_heap, Some b) /\ b_dawg b = none).
  { exists (Builder none [] None). split; [|reflexivity]. exists 20. intros fuel H. do 20 (destruct fuel as [|fuel]; [lia|]). vm_compute. reflexivity. }
  split; [|split; [|split; [|split]]].
  - apply dictionary_untouched with example_heap; [exact example_dictionary|]. intros p R.
    assert (I : In p [1; 2; 3; 4; 5]%N) by (revert R; apply reach_within; [reflexivity|cbn; auto]).
    repeat (destruct I as [<-|I]; [reflexivity|]). destruct I.
  - apply dictionary_untouched with (skipn 1 beside_heap).
    + destruct E1 as (b & R & <-). apply (dictionary_sorted _ _ _ _ _ bump_allocator R).
    + intros p R. assert (I : In p [8; 9; 10]%N) by (revert R; apply reach_within; [reflexivity|cbn; auto]).
      repeat (destruct I as [<-|I]; [reflexivity|]). destruct I.
  - destruct E2 as (b & R & <-). apply (dictionary_sorted _ _ _ _ _ bump_allocator R).
  - assert (Ap : forall l l' r r', (forall q, reach beside_heap r q -> In q l) -> (forall q, reach beside_heap r' q -> In q l') ->
      forallb (fun x => negb (member x l')) l = true -> forall p, ~ (reach beside_heap r p /\ reach beside_heap r' p)).
    { intros l l' r r' H H' F p [R R']. apply H in R. apply H' in R'. rewrite forallb_forall in F. specialize (F p R).
      apply negb_true_iff, member_not in F. auto. }
    assert (A12 : apart beside_heap example_dawg second) by (exact (Ap _ _ _ _ W1 W2 eq_refl)).
    assert (A13 : apart beside_heap example_dawg none) by (exact (Ap _ _ _ _ W1 W3 eq_refl)).
    assert (A23 : apart beside_heap second none) by (exact (Ap _ _ _ _ W2 W3 eq_refl)).
    auto 10 using FOP_nil, FOP_cons.
  - intros p Al. assert (In p (map fst beside_heap)).
    { revert Al. unfold allocated. generalize beside_heap. induction h as [|[q n] h IH]; cbn; [intros X; destruct X; auto|].
      change (hget ((q, n) :: h) p) with (if (p =? q)%N then n else hget h p). destruct (N.eqb_spec p q); auto. }
    vm_compute in H. repeat (destruct H as [<-|H]; [reflexivity|]). destruct H.
Qed.

(** The second one is read; or, if the empty one was written last, a dictionary that
    says it has two terms and lists the empty term twice. *)
Example C87_last_case : forall alloc h1, allocator alloc -> exists f f',
  runs_to (fun fuel => save_all fuel 8%N in_threes (opened 1000%N) beside_heap [example_dawg; second]) ([true; true], f) /\
  runs_to (fun fuel => save_all fuel 8%N in_threes (opened 1000%N) beside_heap [example_dawg; second; none]) ([true; true; true], f') /\
  (exists h2 b, deserialize_file alloc h1 (Some (contents f)) = Ok (h2, Some b) /\ d_size (b_dawg b) = 2%N /\
    contains h2 (b_dawg b) sab = Ok true /\ contains h2 (b_dawg b) scab = Ok false) /\
  (exists h2 b, deserialize_file alloc h1 (Some (contents f')) = Ok (h2, Some b) /\ d_size (b_dawg b) = 2%N /\
    contains h2 (b_dawg b) sab = Ok false /\ runs_to (fun fuel => iterate fuel h2 (b_dawg b)) [[]; []]).
Proof.
  intros alloc h1 A. destruct beside_dictionaries as (D1 & D2 & D3 & Ap & Af). assert (Sp : splitter in_threes) by apply C54_case.
  assert (R1 : exists f, runs_to (fun fuel => save_all fuel 8%N in_threes (opened 1000%N) beside_heap [example_dawg; second]) ([true; true], f) /\
    (N.of_nat (length (contents f)) < 1000)%N).
  { eexists. split; [exists 20; intros fuel H; do 20 (destruct fuel as [|fuel]; [lia|]); vm_compute; reflexivity|reflexivity]. }
  assert (R2 : exists f, runs_to (fun fuel => save_all fuel 8%N in_threes (opened 1000%N) beside_heap [example_dawg; second; none]) ([true; true; true], f) /\
    (N.of_nat (length (contents f)) < 1000)%N).
  { eexists. split; [exists 20; intros fuel H; do 20 (destruct fuel as [|fuel]; [lia|]); vm_compute; reflexivity|reflexivity]. }
  destruct R1 as (f & R1 & L1), R2 as (f' & R2 & L2). exists f, f'. split; auto. split; auto.
  assert (Im : forall n, (n < 1000 -> n <= INT_MAX)%N) by (intros n L; change INT_MAX with 2147483647%N; lia).
  split.
  - assert (Ap2 : ForallOrdPairs (apart beside_heap) ([example_dawg] ++ [second])).
    { inversion Ap as [|? ? F _]; subst. inversion F as [|? ? F1 _]; subst. constructor; [constructor; [exact F1|constructor]|].
      constructor; [constructor|constructor]. }
    destruct (C87_last beside_heap [example_dawg] second [sa; sab] 8%N in_threes 1000%N [true; true] f alloc h1) as (h2 & b & E & _ & Sz & Co & _); eauto.
    exists h2, b. split; auto. split; [rewrite Sz; reflexivity|].
    split; (rewrite Co; [vm_compute; reflexivity|vm_compute; discriminate]).
  - destruct (C87_last beside_heap [example_dawg; second] none [] 8%N in_threes 1000%N [true; true; true] f' alloc h1) as (h2 & b & E & _ & Sz & Co & _ & Li & _); eauto.
    destruct Li as (listing & _ & Em & Li). assert (listing = []) by (destruct listing as [|w l]; auto; destruct (proj1 (Em w)); left; auto).
    subst listing. exists h2, b. split; auto. split; [rewrite Sz; reflexivity|]. rewrite Sz in Li.
    split; [rewrite Co; [vm_compute; reflexivity|vm_compute; discriminate]|exact Li].
Qed.

(** The example written twice. *)
Example C87_twice_case : exists f,
  runs_to (fun fuel => save_all fuel 8%N in_threes (opened 1000%N) example_heap [example_dawg; example_dawg]) ([true; true], f) /\
  (N.of_nat (length (contents f)) < 1000)%N /\ dictionary some_terms example_heap example_dawg /\ addresses_fit example_heap /\
  splitter in_threes /\ In scab some_terms /\ forall alloc h1, allocator alloc -> deserialize_file alloc h1 (Some (contents f)) = UB.
Proof.
  eexists. split; [exists 20; intros fuel H; do 20 (destruct fuel as [|fuel]; [lia|]); vm_compute; reflexivity|].
  split; [reflexivity|]. split; [exact example_dictionary|]. split; [apply C54_case|]. split; [apply C54_case|]. split; [cbn; auto|].
  intros alloc h1 A. unfold deserialize_file, parse_from. match goal with |- rbind (decode ?x) _ = _ => let y := eval vm_compute in (decode x) in
    change (decode x) with y end. cbn [rbind deserialize].
  match goal with |- rbind (from_protobuf _ _ ?m) _ = _ => pose proof (C27_exact alloc h1 m A) as X end.
  match type of X with match ?r with _ => _ end => assert (Er : r = None) by (vm_compute; reflexivity) end.
  rewrite Er in X. rewrite X. reflexivity.
Qed.
