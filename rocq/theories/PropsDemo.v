(** * Properties C57-C61: the example program. *)
From Coq Require Import Sorting.Sorted Sorting.Permutation.
From Verif Require Import Base Spec ModelTransducer ModelDawg ModelSerial ModelWire ModelQuery ModelDemo
  SpecDawg SpecSerial SpecQuery SpecWire SpecDemo
  TreeProofs HeapProofs IterProofs BuildProofs2 DawgProofs QueryProofs QueryFacts WireProofs FileProofs SizeProofs SerialProofs DemoProofs
  PropsDawg PropsQuery PropsSerial PropsWire.
Local Open Scope nat_scope.

Ltac run := split; [vm_compute; reflexivity|].

(** A setting for the examples: an unsorted dictionary file, no saved file. *)
Definition words : list str := [lit "com"; lit "ab"; lit "corn"].
Definition words_disk : disk := fun p => if str_eqb p (lit "words.txt") then Some (map N_of_ascii (unlines words)) else None.
Definition words_args : list str := [lit "--dictionary-path"; lit "words.txt"; lit "--serialization-path"; lit "words.pb"].
Definition words_setting (fs : disk) (args : list str) (stdin : str) : setting :=
  Setting SpecDawg.bump 8 in_threes true 1000 fs args stdin.
Lemma from_there : forall (P : nat -> Prop) n, (forall fuel, P (n + fuel)) -> forall fuel, n <= fuel -> P fuel.
Proof. intros P n H fuel L. replace fuel with (n + (fuel - n)) by lia. apply H. Qed.

Lemma words_sensible : forall fs args stdin, sensible (words_setting fs args stdin).
Proof. intros. split; [apply bump_allocator|apply C54_case]. Qed.
Lemma words_lines : file_lines (words_disk (lit "words.txt")) words.
Proof.
  split; [|left; vm_compute; reflexivity].
  intros l I H. unfold words in I. cbn [In] in I.
  repeat (destruct I as [<-|I]; [vm_compute in H; repeat destruct H as [H|H]; try discriminate; contradiction|]). contradiction.
Qed.
Lemma addresses_below : forall h, forallb (fun c => fst c <? 2 ^ 64)%N h = true -> addresses_fit h.
Proof.
  unfold addresses_fit, allocated. induction h as [|[q n] h IH]; intros H p Al; [destruct Al; auto|].
  apply andb_true_iff in H. destruct H as [Hq H]. apply N.ltb_lt in Hq.
  change (hget ((q, n) :: h) p) with (if (p =? q)%N then n else hget h p) in Al. destruct (N.eqb_spec p q); [subst; exact Hq|auto].
Qed.
Ltac typed := let q := fresh in let I := fresh in let H := fresh in
  intros q I; cbn [In app] in I; repeat (destruct I as [<-|I]; [split; [discriminate|intros H; vm_compute in H;
    repeat destruct H as [H|H]; try discriminate; contradiction]|]); contradiction.
Ltac fits := split; (let t := fresh in let I := fresh in intros t I; unfold words in I; cbn [In app] in I;
  repeat (destruct I as [<-|I]; [vm_compute; try reflexivity; discriminate|]); contradiction).

(** ** C57: a run that finds no saved dictionary answers every query from the
    lines of the dictionary file, whatever their order, frees all memory and
    changes no file but the one it saves to. *)
Theorem C57_first_run : forall s o terms qs, sensible s ->
  parse_opts (s_files s) (s_args s) = inl o ->
  parse_from (s_files s (o_serialization o)) = Ok None ->
  file_lines (s_files s (o_dictionary o)) terms ->
  types (s_stdin s) qs -> sizes_fit terms qs ->
  exists r, runs_to (run s) r /\ code r = RETURN_SUCCESS /\ prints o terms qs (printed r) /\
    (forall p, hget (memory r) p = None) /\
    (forall p, p <> o_serialization o -> files r p = s_files s p).
Proof.
  intros s o terms qs Se P Pn Fl T Sz. destruct (load_fresh s o terms Se Pn Fl) as (h & b & Lo & D & De).
  destruct (dictionary_unf _ _ _ D) as (U & _ & _).
  destruct (run_ok s o h b _ terms qs P Se Lo U (sort_terms_In terms) De T Sz) as (r & m & R & C & A & M & _ & F & _).
  exists r. auto.
Qed.
Print Assumptions C57_first_run.

Example C57_case : let s := words_setting words_disk words_args (unlines [lit "cm"; lit "b"]) in
  let o := Options (lit "words.txt") (lit "words.pb") TRANSPOSITION 2 in
  sensible s /\ parse_opts (s_files s) (s_args s) = inl o /\ parse_from (s_files s (o_serialization o)) = Ok None /\
  file_lines (s_files s (o_dictionary o)) words /\ types (s_stdin s) [lit "cm"; lit "b"] /\ sizes_fit words [lit "cm"; lit "b"] /\
  exists r, runs_to (run s) r /\
    printed r = [(lit "cm", lit "ab", 2%N); (lit "cm", lit "com", 1%N); (lit "b", lit "ab", 1%N)] /\
    (files r (lit "words.pb") <> None).
Proof.
  cbv zeta. split; [apply words_sensible|]. run. run. split; [exact words_lines|].
  split; [split; [typed|left; reflexivity]|]. split; [fits|].
  eexists. split.
  { exists 30. apply from_there. intros fuel. vm_compute. reflexivity. }
  split; [vm_compute; reflexivity|]. vm_compute. discriminate.
Qed.

(** ** C58: runs that find a dictionary saved by earlier runs answer from the
    lines the dictionary file had in the first of them, whatever the dictionary
    file contains now and whichever algorithm and distance are chosen. *)
Theorem C58_later_runs : forall s o terms qs, sensible s ->
  parse_opts (s_files s) (s_args s) = inl o -> saved (o_serialization o) terms (s_files s) ->
  types (s_stdin s) qs -> sizes_fit terms qs ->
  exists r, runs_to (run s) r /\ code r = RETURN_SUCCESS /\ prints o terms qs (printed r) /\
    (forall p, hget (memory r) p = None) /\
    (forall p, p <> o_serialization o -> files r p = s_files s p).
Proof.
  intros s o terms qs Se P Sa T Sz. apply saved_kept in Sa.
  destruct Sa as (ts & h0 & d0 & m0 & D0 & Eq & Ln & Af & R0 & Lm & F0).
  destruct (load_saved s o ts h0 d0 m0 Se D0 Af R0 Lm F0) as (h & b & Lo & D & De). destruct (dictionary_unf _ _ _ D) as (U & _ & _).
  destruct (run_ok s o h b _ terms qs P Se Lo U Eq De T Sz) as (r & m & R & C & A & M & _ & F & _).
  exists r. auto.
Qed.
Print Assumptions C58_later_runs.

(** The dictionary file is deleted after the first run. *)
Example C58_case : exists fs, saved (lit "words.pb") words fs /\ fs (lit "words.txt") = None /\
  let s := words_setting fs [lit "--standard"; lit "--serialization-path"; lit "words.pb"; lit "--max-distance"; lit "1"]
             (unlines [lit "corm"; []; lit "x"]) in
  let o := Options (o_dictionary default_options) (lit "words.pb") STANDARD 1 in
  sensible s /\ parse_opts (s_files s) (s_args s) = inl o /\ types (s_stdin s) [lit "corm"] /\ sizes_fit words [lit "corm"] /\
  exists r, runs_to (run s) r /\ printed r = [(lit "corm", lit "com", 1%N); (lit "corm", lit "corn", 1%N)].
Proof.
  destruct C57_case as (Se & P & Pn & Fl & T & Sz & _).
  assert (exists r, runs_to (run (words_setting words_disk words_args (unlines [lit "cm"; lit "b"]))) r /\
    addresses_fit (saved_from r) /\ exists bytes, files r = set_file words_disk (lit "words.pb") (Some bytes) /\
    let fs := set_file (files r) (lit "words.txt") None in
      let s := words_setting fs [lit "--standard"; lit "--serialization-path"; lit "words.pb"; lit "--max-distance"; lit "1"]
             (unlines [lit "corm"; []; lit "x"]) in
      exists r', runs_to (run s) r' /\ printed r' = [(lit "corm", lit "com", 1%N); (lit "corm", lit "corn", 1%N)]) as
    (r & R & Af & bytes & Fr & Nx).
  { eexists. split.
    { exists 30. apply from_there. intros fuel. vm_compute. reflexivity. }
    split.
    { apply addresses_below. vm_compute. reflexivity. }
    eexists. split; [reflexivity|]. cbv zeta. eexists. split.
    { exists 30. apply from_there. intros fuel. vm_compute. reflexivity. }
    vm_compute. reflexivity. }
  exists (set_file (files r) (lit "words.txt") None). split.
  { eapply saved_elsewhere; [eapply saved_first with (r := r); try eassumption; [reflexivity|]|reflexivity].
    split; [reflexivity|]. split; [exact Af|]. split; vm_compute; discriminate. }
  split; [reflexivity|]. cbv zeta. split; [apply words_sensible|].
  split; [rewrite Fr; vm_compute; reflexivity|]. split; [split; [typed|right; exists (unlines [lit "x"]); reflexivity]|]. split; [fits|].
  exact Nx.
Qed.

(** ** C59: if the program dies while it saves the dictionary, the next run does
    not give wrong answers: it runs into undefined behaviour, or it answers from
    the terms that were being saved, or from the dictionary file. *)
Theorem C59_after_crash : forall terms h d m size split room contents s o terms' qs,
  dictionary terms h d -> addresses_fit h -> runs_to (fun fuel => to_protobuf fuel h d) m -> not_too_long m ->
  splitter split -> found_after_crash size room (split (encode m)) contents ->
  sensible s -> parse_opts (s_files s) (s_args s) = inl o -> s_files s (o_serialization o) = Some contents ->
  file_lines (s_files s (o_dictionary o)) terms' ->
  types (s_stdin s) qs -> sizes_fit terms qs -> sizes_fit terms' qs ->
  runs_into_ub (run s) \/
  exists r, runs_to (run s) r /\ code r = RETURN_SUCCESS /\
    (prints o terms qs (printed r) \/ prints o terms' qs (printed r)) /\
    (forall p, hget (memory r) p = None).
Proof.
  intros terms h d m size split room contents s o terms' qs D Af R Lm Sp Cr Se P Fs Fl T Sz Sz'.
  destruct (C55_crash_point _ _ _ _ _ Sp Cr) as [->|Cs].
  - right. destruct (load_saved s o terms h d m Se D Af R Lm Fs) as (h1 & b & Lo & D1 & De). destruct (dictionary_unf _ _ _ D1) as (U & _ & _).
    destruct (run_ok s o h1 b _ terms qs P Se Lo U (fun t => iff_refl _) De T Sz) as (r & m' & Rr & C & A & M & _).
    exists r. auto.
  - destruct (dictionary_message _ _ _ _ D Af R) as (Ra & Nr & ND & NZ & Wf). destruct Se as (Al & Sp').
    destruct (decode_cut m contents Ra Lm Nr Cs) as [E|[(m' & E & Bg & Nn)|(Ns & E)]].
    + right. assert (Pn : parse_from (s_files s (o_serialization o)) = Ok None) by (rewrite Fs; exact E).
      destruct (C57_first_run s o terms' qs (conj Al Sp') P Pn Fl T Sz') as (r & Rr & C & A & M & _). exists r. auto.
    + left. destruct (from_beginning (s_alloc s) [] m m' Al Wf ND NZ Bg) as (h2 & Ef & _).
      eapply run_null with (h := h2); [exact P| |].
      * exists 0. intros fuel _. unfold load, deserialize_file. rewrite Fs. cbn [parse_from]. rewrite E. cbn [rbind deserialize].
        rewrite Ef. cbn [rbind]. reflexivity.
      * reflexivity.
    + right. destruct (dictionary_unf _ _ _ D) as (U & As & S). pose proof (written h d m _ U R) as De.
      destruct (restored_copy (s_alloc s) h d _ m [] Al U De) as (f & h2 & Ef & Cp).
      pose proof (dictionary_restored _ _ _ _ _ _ _ _ D R Al Ef) as D2. cbn [b_dawg] in D2.
      destruct (dictionary_unf _ _ _ D2) as (U2 & _ & S2). cbn [d_root d_size] in *.
      assert (Ef' : from_protobuf (s_alloc s) [] (set_size 0 m) = Ok (h2, Builder (Dawg (f (d_root d)) 0) [] None)).
      { revert Ef. unfold from_protobuf, set_size. cbn [m_nodes m_finals m_edges m_root m_size].
        destruct (make_nodes (s_alloc s) [] (m_finals m) (m_nodes m) []) as [h0 nodes]. destruct (link_edges h0 nodes (m_edges m)); cbn; try discriminate.
        intros X. injection X as -> -> _. auto. }
      assert (Lo : runs_to (fun fuel => load fuel s o) (h2, Some (Builder (Dawg (f (d_root d)) 0) [] None))).
      { exists 0. intros fuel _. unfold load, deserialize_file. rewrite Fs. cbn [parse_from]. rewrite E. cbn [rbind deserialize].
        rewrite Ef'. cbn [rbind]. reflexivity. }
      assert (Ds : exists h', runs_to (fun fuel => destroy fuel h2 (Builder (Dawg (f (d_root d)) 0) [] None)) h' /\ same_heap h' []).
      { eapply cleaned_destroy_ok; cbn; auto.
        - exact U2.
        - intros x Nx. apply (cp_rest _ _ _ _ _ Cp). intros p Rp ->. apply Nx. apply (copy_reach _ _ _ _ _ _ Cp U). eauto. }
      destruct (run_ok s o h2 _ terms terms qs P (conj Al Sp') Lo U2 (fun t => iff_refl _) Ds T Sz) as (r & m' & Rr & C & A & M & _).
      exists r. auto.
Qed.
Print Assumptions C59_after_crash.

(** The undefined behaviour does happen: if the process dies before anything was
    written to the file it has just emptied, the next run finds the empty file and
    uses a null pointer, although the dictionary file is there. *)
Theorem C59_recovery_refuted : exists terms h d m size split room contents s o,
  dictionary terms h d /\ addresses_fit h /\ runs_to (fun fuel => to_protobuf fuel h d) m /\ not_too_long m /\
  splitter split /\ found_after_crash size room (split (encode m)) contents /\
  sensible s /\ parse_opts (s_files s) (s_args s) = inl o /\ s_files s (o_serialization o) = Some contents /\
  file_lines (s_files s (o_dictionary o)) words /\ types (s_stdin s) [lit "cm"] /\ sizes_fit terms [lit "cm"] /\
  sizes_fit words [lit "cm"] /\ runs_into_ub (run s).
Proof.
  exists some_terms, example_heap, example_dawg, example_message, 100%N, in_threes, 100%N, [],
    (words_setting (set_file words_disk (lit "words.pb") (Some [])) words_args (unlines [lit "cm"])),
    (Options (lit "words.txt") (lit "words.pb") TRANSPOSITION 2).
  split; [exact example_dictionary|]. split; [apply C54_case|]. split.
  { exists 10. apply from_there. intros fuel. vm_compute. reflexivity. }
   split; [apply C54_case|].
  split; [apply C54_case|]. split.
  { eexists 0, _, _, [], _. split; [reflexivity|]. split; [left; reflexivity|]. split; vm_compute; reflexivity. }
  split; [apply words_sensible|]. run. run. split; [exact words_lines|]. split; [split; [typed|left; reflexivity]|].
  split; [fits|]. split; [fits|].
  exists 30. apply from_there. intros fuel. vm_compute. reflexivity.
Qed.
Print Assumptions C59_recovery_refuted.

(** Later, when only the last field is missing, the next run answers rightly. *)
Example C59_case : exists contents,
  found_after_crash 8 100 (in_threes (encode example_message)) contents /\ cut_short contents (encode example_message) /\
  exists r, runs_to (run (words_setting (set_file words_disk (lit "words.pb") (Some contents)) words_args (unlines [lit "cb"]))) r /\
    In (lit "cb", lit "cab", 1%N) (printed r) /\ ~ In (lit "com") (map (fun a => snd (fst a)) (printed r)).
Proof.
  exists (firstn 61 (encode example_message)). split.
  { eexists 1, _, _, _, (skipn 61 (encode example_message)). split; [reflexivity|]. split; [left; reflexivity|]. split; vm_compute; reflexivity. }
  split. { exists (skipn 61 (encode example_message)). split; [vm_compute; discriminate|vm_compute; reflexivity]. }
  eexists. split.
  { exists 30. apply from_there. intros fuel. vm_compute. reflexivity. }
  cbn [printed map fst snd]. split; [vm_compute; tauto|]. intros H. vm_compute in H. repeat destruct H as [H|H]; try discriminate; contradiction.
Qed.

(** ** C60: a last line without a newline.  The program asks the last query again
    and again and never ends. *)
Theorem C60_end_of_input : forall s o terms qs q, sensible s ->
  parse_opts (s_files s) (s_args s) = inl o ->
  (parse_from (s_files s (o_serialization o)) = Ok None /\ file_lines (s_files s (o_dictionary o)) terms \/
   saved (o_serialization o) terms (s_files s)) ->
  types_and_leaves (s_stdin s) qs q -> sizes_fit terms (qs ++ [q]) ->
  runs_forever (run s).
Proof.
  intros s o terms qs q Se P Src (N & St) Sz.
  assert (exists h b ts, runs_to (fun fuel => load fuel s o) (h, Some b) /\ dictionary ts h (b_dawg b) /\ forall t, In t ts <-> In t terms)
    as (h & b & ts & (B & E) & D & Eq).
  { destruct Src as [(Pn & Fl)|Sa].
    - destruct (load_fresh s o terms Se Pn Fl) as (h & b & Lo & D & _). exists h, b, (sort_terms terms). auto using sort_terms_In.
    - apply saved_kept in Sa. destruct Sa as (ts & h0 & d0 & m0 & D0 & Eq & Ln & Af & R0 & Lm & F0).
      destruct (load_saved s o ts h0 d0 m0 Se D0 Af R0 Lm F0) as (h & b & Lo & D & _). exists h, b, ts. auto. }
  destruct (dictionary_unf _ _ _ D) as (U & _ & _).
  assert (L : forall p, In p (qs ++ [q]) -> within_limits ts p (o_max_distance o)).
  { intros p I. destruct (within _ _ _ _ _ _ P Sz I) as (A1 & A2 & A3). split; auto. split; auto. intros t It. apply A3, Eq, It. }
  destruct (prompt_leaves_oof h (b_dawg b) o ts U qs q N L) as (B' & E'). split.
  - intros fuel a. rewrite (run_load _ _ _ P). destruct (load fuel s o) as [[h1 [b1|]]| |]; cbn [rbind]; try discriminate.
    rewrite St. destruct (prompt_loop fuel fuel h1 (b_dawg b1) o _ []) eqn:X; cbn [rbind]; try discriminate.
    exfalso. eapply prompt_leaves; eauto.
  - exists (B + B'). intros fuel F. rewrite (run_load _ _ _ P), E by lia. cbn [rbind]. rewrite St, E' by lia. auto.
Qed.
Print Assumptions C60_end_of_input.

Example C60_case : let s := words_setting words_disk words_args (unlines [lit "cm"] ++ lit "b") in
  let o := Options (lit "words.txt") (lit "words.pb") TRANSPOSITION 2 in
  sensible s /\ parse_opts (s_files s) (s_args s) = inl o /\ parse_from (s_files s (o_serialization o)) = Ok None /\
  file_lines (s_files s (o_dictionary o)) words /\ types_and_leaves (s_stdin s) [lit "cm"] (lit "b") /\
  sizes_fit words [lit "cm"; lit "b"].
Proof.
  cbv zeta. split; [apply words_sensible|]. run. run. split; [exact words_lines|].
  split; [split; [typed|reflexivity]|fits].
Qed.

(** ** C61: command lines. *)

(** Options may come in any order and repeatedly; for each kind the last one
    counts; what is not given has its default. *)
Theorem C61_options : forall fs gs dictionary serialization alg n,
  (forall p, In (GivenDictionary p) gs -> fs p <> None) ->
  (forall k, In (GivenDistance k) gs -> (k <= SIZE_MAX)%N) ->
  dictionary = last_or (fun g => match g with GivenDictionary p => Some p | _ => None end)
                 (lit "../resources/programming-languages.txt") gs ->
  serialization = last_or (fun g => match g with GivenSerialization p => Some p | _ => None end)
                 (lit "programming-languages.pb") gs ->
  alg = last_or (fun g => match g with GivenAlgorithm a => Some a | _ => None end) TRANSPOSITION gs ->
  n = last_or (fun g => match g with GivenDistance k => Some k | _ => None end) 2%N gs ->
  (fs dictionary <> None \/ fs serialization <> None ->
   parse_opts fs (flat_map said gs) = inl (Options dictionary serialization alg n)) /\
  (fs dictionary = None -> fs serialization = None -> parse_opts fs (flat_map said gs) = inr RETURN_FILE_NOT_EXISTS).
Proof.
  intros fs gs dictionary serialization alg n Hd Hn E1 E2 E3 E4.
  assert (P : parse_args fs default_options (flat_map said gs) = inl (Options dictionary serialization alg n)).
  { pose proof (parse_said fs gs default_options [] Hd Hn) as P. rewrite app_nil_r in P. rewrite P. cbn [parse_args].
    rewrite apply_options. cbn [default_options o_dictionary o_serialization o_algorithm o_max_distance]. congruence. }
  unfold parse_opts. rewrite P. cbn [o_dictionary o_serialization]. unfold exists_file. split.
  - intros H. destruct (fs dictionary), (fs serialization); auto. destruct H; congruence.
  - intros -> ->. reflexivity.
Qed.
Print Assumptions C61_options.

Example C61_case : let gs := [GivenDistance 7; GivenAlgorithm STANDARD; GivenDictionary (lit "words.txt"); GivenDistance 10;
    GivenAlgorithm MERGE_AND_SPLIT] in
  parse_opts words_disk (flat_map said gs) =
    inl (Options (lit "words.txt") (lit "programming-languages.pb") MERGE_AND_SPLIT 10) /\
  flat_map said gs = [lit "--max-distance"; lit "7"; lit "--standard"; lit "--dictionary-path"; lit "words.txt";
    lit "--max-distance"; lit "10"; lit "--merge-and-split"].
Proof. cbv zeta. run. vm_compute. reflexivity. Qed.

(** Nothing else is accepted; after any valid options, the first argument that is
    not valid decides. *)
Theorem C61_errors : forall fs args gs rest,
  (forall o, parse_opts fs args = inl o -> well_formed_args args) /\
  ((forall p, In (GivenDictionary p) gs -> fs p <> None) -> (forall k, In (GivenDistance k) gs -> (k <= SIZE_MAX)%N) ->
   let after := fun more => parse_opts fs (flat_map said gs ++ more) in
   after (lit "-h" :: rest) = inr RETURN_SUCCESS /\ after (lit "--help" :: rest) = inr RETURN_SUCCESS /\
   (forall p, fs p = None -> after (lit "--dictionary-path" :: p :: rest) = inr RETURN_FILE_NOT_EXISTS) /\
   (forall name, In name [lit "--dictionary-path"; lit "--serialization-path"; lit "--max-distance"] ->
      after [name] = inr RETURN_END_OF_OPTS) /\
   (forall word, ~ In word [lit "-h"; lit "--help"; lit "--dictionary-path"; lit "--serialization-path"; lit "--max-distance";
        lit "--standard"; lit "--transposition"; lit "--merge-and-split"] ->
      after (word :: rest) = inr RETURN_INVALID_ARG)).
Proof.
  intros fs args gs rest. split.
  - intros o E. unfold parse_opts in E. destruct (parse_args fs default_options args) as [o'|] eqn:P; [|discriminate].
    eapply parse_well_formed; eauto.
  - intros Hd Hn. cbv zeta. unfold parse_opts. split; [|split; [|split; [|split]]].
    + rewrite parse_said; auto.
    + rewrite parse_said; auto.
    + intros p N. rewrite parse_said by auto. cbn [parse_args].
      change (str_eqb (lit "--dictionary-path") (lit "-h") || str_eqb (lit "--dictionary-path") (lit "--help")) with false.
      rewrite str_eqb_refl. unfold exists_file. rewrite N. reflexivity.
    + intros name I. rewrite parse_said by auto. repeat (destruct I as [<-|I]; [reflexivity|]). destruct I.
    + intros word I. rewrite parse_said by auto. cbn [parse_args].
      assert (Ne : forall w, In w [lit "-h"; lit "--help"; lit "--dictionary-path"; lit "--serialization-path"; lit "--max-distance";
        lit "--standard"; lit "--transposition"; lit "--merge-and-split"] -> str_eqb word w = false).
      { intros w Iw. destruct (str_eqb word w) eqn:E; auto. apply str_eqb_eq in E. subst. contradiction. }
      rewrite !Ne by (cbn; tauto). reflexivity.
Qed.
Print Assumptions C61_errors.

(** What a distance on the command line means: white space, a sign and digits,
    up to the first other character.  Distances that are not numbers are accepted:
    blank text leaves the default, other text counts as 0, large numbers as
    SIZE_MAX, and minus one as SIZE_MAX too. *)
Theorem C61_distances : forall fs v o, parse_opts fs [lit "--max-distance"; v] = inl o ->
  (forall n, reads v 2 n <-> o_max_distance o = n) /\
  ((forall c, In c v -> blank c) -> o_max_distance o = 2%N) /\
  (forall c w, v = c :: w -> ~ blank c -> (forall k, ~ digit c k) -> c <> "-"%char -> c <> "+"%char -> o_max_distance o = 0%N) /\
  (forall n, v = decimal n -> o_max_distance o = N.min n SIZE_MAX) /\
  (forall n, v = "-"%char :: decimal n -> (0 < n <= SIZE_MAX)%N -> o_max_distance o = (2 ^ 64 - n)%N).
Proof.
  intros fs v o E. unfold parse_opts in E.
  change (parse_args fs default_options [lit "--max-distance"; v]) with
    (inl (B := return_code) (Options (o_dictionary default_options) (o_serialization default_options) (o_algorithm default_options)
       (read_size v (o_max_distance default_options)))) in E.
  cbv beta iota in E. destruct (_ && _) in E; [discriminate|]. injection E as <-. cbn [o_max_distance default_options].
  split; [|split; [|split; [|split]]].
  - intros n. split; [apply read_size_reads|]. intros <-. destruct (reads_total v 2) as (n & R).
    rewrite (read_size_reads _ _ _ R). auto.
  - intros H. apply read_size_blank. intros c I. apply is_space_blank. auto.
  - intros c w -> A B C D. apply read_size_word; auto.
    + destruct (is_space c) eqn:S; auto. apply is_space_blank in S. contradiction.
    + destruct (is_digit c) eqn:S; auto. apply is_digit_spec in S. destruct (B _ S).
  - intros n ->. apply read_size_decimal.
  - intros n -> H. rewrite read_size_negative by apply H. apply N.mod_small. lia.
Qed.
Print Assumptions C61_distances.

Example C61_case_distances : let given v := match parse_opts words_disk (words_args ++ [lit "--max-distance"; v]) with
    | inl o => Some (o_max_distance o) | inr _ => None end in
  given (lit "  ") = Some 2%N /\ given (lit "three") = Some 0%N /\ given (lit "-1") = Some SIZE_MAX /\
  given (lit "20000000000000000000") = Some SIZE_MAX /\ given (lit "3x") = Some 3%N /\
  given (lit "  +12 4") = Some 12%N /\ reads (lit "  +12 4") 2 12.
Proof.
  cbv zeta. repeat (split; [vm_compute; reflexivity|]).
  apply (@reads_number (lit "  ") (lit "+") (lit "12") (lit " 4") 2 12).
  - repeat constructor.
  - right. left. auto.
  - apply (@numeral_snoc (lit "1") 1 "2"%char 2%N); [apply (@numeral_snoc [] 0 "1"%char 1%N); [constructor|]|]; vm_compute; tauto.
  - intros c k H. injection H as <-. intros D. vm_compute in D. repeat (destruct D as [D|D]; [discriminate|]). contradiction.
  - discriminate.
Qed.
