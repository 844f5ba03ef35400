(** * C118: Runs of the example program at the same time.

    The example program loads its dictionary when it starts and saves it when it
    ends; what the runs of several processes do to each other if they have the same
    serialization path. *)
From Coq Require Import Sorting.Permutation.
From Verif Require Import Base Spec ModelTransducer ModelDawg ModelSerial ModelWire ModelQuery ModelDemo ModelSavers
  SpecDawg SpecSerial SpecQuery SpecWire SpecDemo PropsDawg PropsDemo.
From Verif Require PropsSavers PropsSerial.
Local Open Scope nat_scope.

Lemma prefix_crash : forall bs contents, contents = bs \/ cut_short contents bs ->
  found_after_crash 0 (N.of_nat (length bs)) [bs] contents.
Proof.
  intros bs contents H. assert (E : exists back, bs = contents ++ back).
  { destruct H as [->|(back & _ & ->)]; [exists []; now rewrite app_nil_r|now exists back]. }
  destruct E as (back & E). exists 0, (after_pieces 0 (N.of_nat (length bs)) [bs] 0), (after_pieces 0 (N.of_nat (length bs)) [bs] 1), contents, back.
  split; auto. split; auto. split; [reflexivity|]. rewrite <- E. unfold after_pieces. cbn [firstn fold_left].
  unfold write. cbn [good negb pending length Nat.add]. destruct (N.leb_spec (N.of_nat (length bs)) 0) as [L|L].
  - cbn. destruct bs; [reflexivity|cbn in L; lia].
  - unfold flush. cbn [pending written space app]. rewrite ?Nnat.Nat2N.id, ?firstn_all. cbn. auto.
Qed.

(** A run that starts while another one is saving, where nothing was before, or the
    same: it answers from the dictionary that is being saved or from its own dictionary file,
    or it runs into undefined behaviour. *)
Theorem C118_starting : forall terms h d m file before after events file' ps' got s o terms' qs,
  dictionary terms h d -> addresses_fit h -> runs_to (fun fuel => to_protobuf fuel h d) m -> not_too_long m ->
  file = None \/ file = Some (encode m) -> (forall p, In p (before ++ after) -> p = Load) ->
  happens (file, before ++ Save (encode m) :: after) events (file', ps') -> In (Loaded got) ps' ->
  sensible s -> parse_opts (s_files s) (s_args s) = inl o -> s_files s (o_serialization o) = got ->
  file_lines (s_files s (o_dictionary o)) terms' ->
  types (s_stdin s) qs -> sizes_fit terms qs -> sizes_fit terms' qs ->
  runs_into_ub (run s) \/
  exists r, runs_to (run s) r /\ code r = RETURN_SUCCESS /\
    (prints o terms qs (printed r) \/ prints o terms' qs (printed r)) /\
    (forall p, hget (memory r) p = None).
Proof.
  intros terms h d m file before after events file' ps' got s o terms' qs D Af R Lm F0 P H I Se Po Fs Fl T Sz Sz'. destruct got as [got|].
  - pose proof (PropsSavers.C116_loading _ _ _ _ _ _ _ _ F0 P H I) as G.
    refine (C59_after_crash terms h d m 0 (fun bs => [bs]) (N.of_nat (length (encode m))) got s o terms' qs D Af R Lm _ _ Se Po Fs Fl T Sz Sz').
    + intros bs. apply app_nil_r.
    + now apply prefix_crash.
  - right. destruct (C57_first_run s o terms' qs Se Po ltac:(rewrite Fs; reflexivity) Fl T Sz') as (r & Rr & C & A & M & _). exists r. auto.
Qed.
Print Assumptions C118_starting.

(** Runs that end at the same time and save the same bytes: as soon as the one that
    opened the file last has ended, it is what it is after a single run, and the
    next run answers from it. *)
Theorem C118_ending : forall path terms fs bs file ps events file' ps' before i after s o qs,
  saved path terms fs -> fs path = Some bs ->
  (forall p, In p ps -> p = Save bs \/ p = Load) -> happens (file, ps) events (file', ps') ->
  events = before ++ (i, Opens) :: after -> (forall j, ~ In (j, Opens) after) -> In (i, Closes) after ->
  sensible s -> parse_opts (s_files s) (s_args s) = inl o -> o_serialization o = path -> s_files s path = file' ->
  types (s_stdin s) qs -> sizes_fit terms qs ->
  exists r, runs_to (run s) r /\ code r = RETURN_SUCCESS /\ prints o terms qs (printed r) /\
    (forall p, hget (memory r) p = None).
Proof.
  intros path terms fs bs file ps events file' ps' before i after s o qs Sv Eb P H E No Cl Se Po Ep Ef T Sz.
  rewrite (PropsSavers.C116_same _ _ _ _ _ _ _ _ _ P H E No Cl) in Ef. subst path.
  assert (Sv' : saved (o_serialization o) terms (s_files s)) by (eapply saved_elsewhere; [exact Sv|congruence]).
  destruct (C58_later_runs s o terms qs Se Po Sv' T Sz) as (r & Rr & C & A & M & _). exists r. auto.
Qed.
Print Assumptions C118_ending.

(** ** Cases *)

Example C118_ending_case : exists fs bs before after, saved (lit "words.pb") words fs /\ fs (lit "words.pb") = Some bs /\
  happens (None, [Save bs; Save bs]) (before ++ (1, Opens) :: after) (Some bs, [Saved; Saved]) /\
  (forall j, ~ In (j, Opens) after) /\ In (1, Closes) after.
Proof.
  destruct C58_case as (fs & Sv & _). destruct (DemoProofs.saved_kept _ _ _ Sv) as (ts & h0 & d0 & m0 & _ & _ & _ & _ & _ & _ & F0).
  set (bs := encode m0) in *.
  assert (H0 : happens (None, [Save bs; Save bs]) ([(0, Opens)] ++ [(1, Opens)]) (Some [], [Writing 0 bs; Writing 0 bs])).
  { apply (happens_next _ [(0, Opens)] (Some []) [Writing 0 bs] (Save bs) [] Opens); [|constructor].
    apply (happens_next _ [] None [] (Save bs) [Save bs] Opens); constructor. }
  destruct (PropsSavers.writes bs [] [] 0 [Writing 0 bs] []) as (e1 & H1 & W1). rewrite app_nil_r in H1.
  destruct (PropsSavers.writes bs [] (PropsSavers.put_bytes [] 0 bs) 0 [] [Writing (0 + length bs) []]) as (e2 & H2 & W2). rewrite app_nil_r in H2.
  cbn [app] in *. pose proof (PropsSavers.happens_trans _ _ _ H2 _ _ (PropsSavers.happens_trans _ _ _ H1 _ _ H0)) as H.
  eapply (happens_next _ _ _ [] _ [_] Closes) in H; [|constructor]. eapply (happens_next _ _ _ [_] _ [] Closes) in H; [|constructor].
  cbn [app length] in H. rewrite <- !app_assoc in H. cbn [app] in H.
  match type of H with happens _ ((0, Opens) :: (1, Opens) :: ?l) _ => exists fs, bs, [(0, Opens)], l end.
  assert (No : forall j, ~ In (j, Opens) (e1 ++ e2 ++ [(0, Closes); (1, Closes)])).
  { intros j I. apply in_app_or in I. destruct I as [I|I]; [apply W1 in I; discriminate|].
    apply in_app_or in I. destruct I as [I|[I|[I|[]]]]; [apply W2 in I|..]; discriminate. }
  assert (Cl : In (1, Closes) (e1 ++ e2 ++ [(0, Closes); (1, Closes)])) by (apply in_or_app; right; apply in_or_app; cbn; auto).
  split; [exact Sv|]. split; [exact F0|]. split; [|split; [exact No|exact Cl]].
  assert (Al : forall p, In p [Save bs; Save bs] -> p = Save bs \/ p = Load) by (intros p [<-|[<-|[]]]; auto).
  pose proof (PropsSavers.C116_same bs _ _ _ _ _ [(0, Opens)] 1 _ Al H eq_refl No Cl) as E. rewrite <- E. exact H.
Qed.

Example C118_starting_case : exists events s o got,
  dictionary some_terms PropsQuery.example_heap PropsQuery.example_dawg /\ addresses_fit PropsQuery.example_heap /\
  runs_to (fun fuel => to_protobuf fuel PropsQuery.example_heap PropsQuery.example_dawg) PropsSerial.example_message /\ not_too_long PropsSerial.example_message /\
  happens (None, [Load; Save (encode PropsSerial.example_message); Load]) events
    (Some (encode PropsSerial.example_message), [Loaded None; Saved; Loaded (Some got)]) /\ cut_short got (encode PropsSerial.example_message) /\
  sensible s /\ parse_opts (s_files s) (s_args s) = inl o /\ s_files s (o_serialization o) = Some got /\
  file_lines (s_files s (o_dictionary o)) words.
Proof.
  set (m := PropsSerial.example_message). set (bs := encode m).
  assert (Eb : bs = firstn 61 bs ++ skipn 61 bs) by (symmetry; apply firstn_skipn).
  assert (H0 : happens (None, [Load; Save bs; Load]) [(0, Reads)] (None, [Loaded None; Save bs; Load])).
  { apply (happens_next _ [] None [] Load [Save bs; Load] Reads); constructor. }
  eapply (happens_next _ _ _ [_] (Save bs) [_] Opens) in H0; [|constructor].
  destruct (PropsSavers.writes (firstn 61 bs) (skipn 61 bs) [] 0 [Loaded None] [Load]) as (e1 & H1 & _). rewrite <- Eb in H1.
  pose proof (PropsSavers.happens_trans _ _ _ H1 _ _ H0) as H2.
  assert (Ep : PropsSavers.put_bytes [] 0 (firstn 61 bs) = firstn 61 bs) by (vm_compute; reflexivity). rewrite Ep in H2.
  eapply (happens_next _ _ _ [_; _] Load [] Reads) in H2; [|apply act_open].
  destruct (PropsSavers.reads (firstn 61 bs) [] [] (firstn 61 bs) [Loaded None; Writing (0 + length (firstn 61 bs)) (skipn 61 bs)] [] ltac:(symmetry; apply app_nil_r)) as (e3 & H3).
  pose proof (PropsSavers.happens_trans _ _ _ H3 _ _ H2) as H4. rewrite app_nil_l in H4.
  eapply (happens_next _ _ _ [_; _] _ [] Reads) in H4; [|apply act_end; lia].
  destruct (PropsSavers.writes (skipn 61 bs) [] (firstn 61 bs) 61 [Loaded None] [Loaded (Some (firstn 61 bs))]) as (e5 & H5 & _). rewrite app_nil_r in H5.
  pose proof (PropsSavers.happens_trans _ _ _ H5 _ _ H4) as H6.
  assert (Eq : PropsSavers.put_bytes (firstn 61 bs) 61 (skipn 61 bs) = bs) by (vm_compute; reflexivity). rewrite Eq in H6.
  eapply (happens_next _ _ _ [_] _ [_] Closes) in H6; [|constructor].
  eexists _, (words_setting (set_file words_disk (lit "words.pb") (Some (firstn 61 bs))) words_args (unlines [lit "cm"])),
    (Options (lit "words.txt") (lit "words.pb") TRANSPOSITION 2), (firstn 61 bs).
  split; [exact PropsQuery.example_dictionary|]. split; [apply PropsWire.C54_case|].
  split; [exists 10; apply from_there; intros fuel; vm_compute; reflexivity|]. split; [apply PropsWire.C54_case|].
  split; [exact H6|]. split; [exists (skipn 61 bs); split; [vm_compute; discriminate|exact Eb]|].
  split; [apply words_sensible|]. run. run. exact words_lines.
Qed.
