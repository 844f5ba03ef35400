(** * Property C76: what is printed. *)
From Coq Require Import Sorting.Sorted Sorting.Permutation.
From Verif Require Import Base Spec ModelDistance ModelTransducer ModelDawg ModelSerial ModelWire ModelQuery ModelDemo DawgProofs BuildProofs2
  HeapProofs SpecDawg SpecSerial SpecQuery SpecWire SpecDemo ModelText SpecText DemoProofs TextProofs PropsDawg PropsDemo.
Local Open Scope nat_scope.

(** ** C76: a run shows its configuration and then, for every query, the question
    and one line for each of the right answers; it shows no error. *)
Theorem C76_session : forall s o terms qs, uses s o terms -> types (s_stdin s) qs -> sizes_fit terms qs ->
  exists config parts, configuration o config /\
    Forall2 (right_answers (o_algorithm o) (o_max_distance o) terms) qs parts /\
    runs_to (shows s) (config ++ conversation parts, []).
Proof.
  intros s o terms qs Us T Sz. destruct (uses_shows _ _ _ _ Us T Sz) as (parts & F & R).
  exists (show_config o), parts. split; auto. apply show_config_ok. destruct Us as (_ & P & _). eapply parse_opts_max; eauto.
Qed.
Print Assumptions C76_session.

Example C76_session_case : let s := words_setting words_disk words_args (unlines [lit "cm"; lit "b"]) in
  let o := Options (lit "words.txt") (lit "words.pb") TRANSPOSITION 2 in
  uses s o words /\ types (s_stdin s) [lit "cm"; lit "b"] /\ sizes_fit words [lit "cm"; lit "b"] /\
  runs_to (shows s) (unlines (map lit [
    "Using configuration:";
    "  dictionary-path: ""words.txt""";
    "  serialization-path: ""words.pb""";
    "  algorithm: transposition";
    "  max-distance: 2";
    "";
    "Enter a query term (or nothing to exit).";
    "query> d(""cm"", ""ab"") = 2";
    "d(""cm"", ""com"") = 1";
    "";
    "Enter a query term (or nothing to exit).";
    "query> d(""b"", ""ab"") = 1";
    "";
    "Enter a query term (or nothing to exit).";
    "query> ";
    "Exiting ..." ]%string), []).
Proof.
  destruct C57_case as (Se & P & Pn & Fl & T & Sz & _). cbv zeta. split; [split; [exact Se|split; [exact P|left; split; [exact Pn|exact Fl]]]|].
  split; [exact T|]. split; [exact Sz|].
  exists 30. intros fuel H. do 30 (destruct fuel as [|fuel]; [exfalso; lia|]). clear H. vm_compute. reflexivity.
Qed.

(** ** What is shown can be read back: if two runs are asked the same queries and
    show the same text, they had the same options and gave the same answers. *)
Theorem C76_readable : forall s s' o o' terms terms' qs text, uses s o terms -> uses s' o' terms' ->
  types (s_stdin s) qs -> types (s_stdin s') qs -> sizes_fit terms qs -> sizes_fit terms' qs ->
  runs_to (shows s) text -> runs_to (shows s') text ->
  o = o' /\ exists parts, Forall2 (right_answers (o_algorithm o) (o_max_distance o) terms) qs parts /\
    Forall2 (right_answers (o_algorithm o) (o_max_distance o) terms') qs parts.
Proof.
  intros s s' o o' terms terms' qs text Us Us' T T' Sz Sz' (B1 & R1) (B2 & R2).
  destruct (uses_shows _ _ _ _ Us T Sz) as (parts & F & (B3 & R3)), (uses_shows _ _ _ _ Us' T' Sz') as (parts' & F' & (B4 & R4)).
  specialize (R1 (B1 + B2 + B3 + B4) ltac:(lia)). specialize (R2 (B1 + B2 + B3 + B4) ltac:(lia)).
  specialize (R3 (B1 + B2 + B3 + B4) ltac:(lia)). specialize (R4 (B1 + B2 + B3 + B4) ltac:(lia)).
  rewrite R1 in R3. rewrite R2 in R4.
  assert (E : show_config o ++ conversation parts = show_config o' ++ conversation parts') by congruence. clear R1 R2 R3 R4.
  pose proof (uses_one_line _ _ _ Us) as O. pose proof (uses_one_line _ _ _ Us') as O'.
  destruct Us as (_ & P & _), Us' as (_ & P' & _). pose proof (parse_opts_max _ _ _ P) as L. pose proof (parse_opts_max _ _ _ P') as L'.
  pose proof (configuration_split _ _ _ _ _ _ L L' (show_config_ok o L) (show_config_ok o' L') E) as (Eo & _ & Ec). subst o'. split; auto. clear E. rename Ec into E.
  apply conversation_inj with (qs := qs) in E.
  - subst parts'. eauto.
  - intros q I. apply (proj1 T q I).
  - clear - F O L. induction F; constructor; auto. eapply right_plain; eauto.
  - clear - F' O' L. induction F'; constructor; auto. eapply right_plain; eauto.
Qed.
Print Assumptions C76_readable.

(** Two runs for which this says something: the second dictionary file has the
    lines in another order and one more, which is too far away. *)
Example C76_readable_case : let words' := [lit "ab"; lit "corn"; lit "com"; lit "a"",b"] in
  let disk' : disk := fun p => if str_eqb p (lit "words.txt") then Some (map N_of_ascii (unlines words')) else None in
  let s := words_setting words_disk words_args (unlines [lit "cm"; lit "b"]) in
  let s' := words_setting disk' words_args (unlines [lit "cm"; lit "b"]) in
  exists o text, uses s o words /\ uses s' o words' /\ types (s_stdin s') [lit "cm"; lit "b"] /\
    sizes_fit words' [lit "cm"; lit "b"] /\ runs_to (shows s) text /\ runs_to (shows s') text.
Proof.
  cbv zeta. destruct C76_session_case as (Us & T & Sz & R). eexists _, _. split; [exact Us|]. split.
  { split; [apply words_sensible|]. split; [vm_compute; reflexivity|]. left. run. split; [|left; vm_compute; reflexivity].
    intros l I H. cbn [In] in I.
    repeat (destruct I as [<-|I]; [vm_compute in H; repeat destruct H as [H|H]; try discriminate; contradiction|]). contradiction. }
  split; [exact T|]. split; [fits|]. split; [exact R|].
  exists 30. intros fuel H. do 30 (destruct fuel as [|fuel]; [exfalso; lia|]). clear H. vm_compute. reflexivity.
Qed.

(** The queries are not shown.  Runs that are asked different queries may show the
    same text although they give different answers. *)
Theorem C76_other_queries_refuted : exists s s' o o' terms terms' q q' parts parts' text,
  uses s o terms /\ uses s' o' terms' /\
  types (s_stdin s) [q] /\ types (s_stdin s') [q'] /\ sizes_fit terms [q] /\ sizes_fit terms' [q'] /\
  runs_to (shows s) text /\ runs_to (shows s') text /\
  right_answers (o_algorithm o) (o_max_distance o) terms q parts /\
  right_answers (o_algorithm o') (o_max_distance o') terms' q' parts' /\ parts <> parts'.
Proof.
  pose (disk1 := (fun p => if str_eqb p (lit "words.txt") then Some (map N_of_ascii (unlines [lit "b"", ""c"])) else None) : disk).
  pose (disk2 := (fun p => if str_eqb p (lit "words.txt") then Some (map N_of_ascii (unlines [lit "c"])) else None) : disk).
  pose (args := words_args ++ [lit "--standard"; lit "--max-distance"; lit "6"]).
  pose (q1 := lit "a"). pose (q2 := lit "a"", ""b").
  pose (o := Options (lit "words.txt") (lit "words.pb") STANDARD 6).
  assert (U1 : uses (words_setting disk1 args (unlines [q1])) o [lit "b"", ""c"]).
  { split; [apply words_sensible|]. split; [vm_compute; reflexivity|]. left. run. split; [|left; vm_compute; reflexivity].
    intros l I H. cbn [In] in I.
    repeat (destruct I as [<-|I]; [vm_compute in H; repeat destruct H as [H|H]; try discriminate; contradiction|]). contradiction. }
  assert (U2 : uses (words_setting disk2 args (unlines [q2])) o [lit "c"]).
  { split; [apply words_sensible|]. split; [vm_compute; reflexivity|]. left. run. split; [|left; vm_compute; reflexivity].
    intros l I H. cbn [In] in I.
    repeat (destruct I as [<-|I]; [vm_compute in H; repeat destruct H as [H|H]; try discriminate; contradiction|]). contradiction. }
  assert (T1 : types (unlines [q1]) [q1]) by (split; [typed|left; reflexivity]).
  assert (T2 : types (unlines [q2]) [q2]) by (split; [typed|left; reflexivity]).
  assert (S1 : sizes_fit [lit "b"", ""c"] [q1]) by fits. assert (S2 : sizes_fit [lit "c"] [q2]) by fits.
  exists (words_setting disk1 args (unlines [q1])), (words_setting disk2 args (unlines [q2])), o, o, [lit "b"", ""c"], [lit "c"], q1, q2,
    (answered STANDARD 6 [lit "b"", ""c"] q1), (answered STANDARD 6 [lit "c"] q2).
  eexists. split; [exact U1|]. split; [exact U2|]. split; [exact T1|]. split; [exact T2|]. split; [exact S1|]. split; [exact S2|].
  split. { exists 40. intros fuel H. do 40 (destruct fuel as [|fuel]; [exfalso; lia|]). clear H. vm_compute. reflexivity. }
  split. { exists 40. intros fuel H. do 40 (destruct fuel as [|fuel]; [exfalso; lia|]). clear H. vm_compute. reflexivity. }
  split; [apply answered_right; tauto|]. split; [apply answered_right; tauto|]. vm_compute. discriminate.
Qed.
Print Assumptions C76_other_queries_refuted.

(** ** A run that refuses its command line shows nothing on the standard output and
    says on the standard error output what is wrong with the first argument that
    is not valid. *)
Theorem C76_refuses : forall s c, parse_opts (s_files s) (s_args s) = inr c ->
  exists err, err <> [] /\ forall fuel, shows s fuel = Ok ([], err).
Proof.
  intros s c P. exists (args_text (s_files s) default_options (s_args s)). split; [eapply args_text_fails; eauto|].
  intros fuel. unfold shows, demo_text. rewrite P. reflexivity.
Qed.
Print Assumptions C76_refuses.

(** The help text mentions every option there is, and the distance that is used if
    none is given. *)
Definition mentions (text word : str) : Prop := exists before after, text = before ++ word ++ after.

Fixpoint starts_with (w s : str) : bool :=
  match w, s with
  | [], _ => true
  | c :: w', d :: s' => ceqb c d && starts_with w' s'
  | _ :: _, [] => false
  end.
Fixpoint occurs (w s : str) : bool :=
  starts_with w s || match s with [] => false | _ :: s' => occurs w s' end.

Lemma starts_with_sound : forall w s, starts_with w s = true -> exists t, s = w ++ t.
Proof.
  induction w as [|c w IH]; intros s H; [exists s; auto|]. destruct s as [|d s]; [discriminate|]. cbn in H.
  apply andb_prop in H. destruct H as [H1 H2]. apply Ascii.eqb_eq in H1. subst d. destruct (IH s H2) as (t & ->). exists t. auto.
Qed.
Lemma occurs_sound : forall w s, occurs w s = true -> mentions s w.
Proof.
  induction s as [|c s IH]; cbn [occurs]; intros H; apply orb_prop in H; destruct H as [H|H]; try discriminate;
    try (apply starts_with_sound in H; destruct H as (t & ->); exists [], t; reflexivity).
  destruct (IH H) as (a & b & ->). exists (c :: a), b. reflexivity.
Qed.

Fixpoint lines_of (s : str) : list str :=
  match s with
  | [] => [[]]
  | c :: s' => if Ascii.eqb c (Ascii.ascii_of_N 10) then [] :: lines_of s'
               else match lines_of s' with [] => [[c]] | l :: ls => (c :: l) :: ls end
  end.

Theorem C76_help : forall fs word, parse_opts fs [word] <> inr RETURN_INVALID_ARG ->
  mentions help word /\
  mentions help (lit "(default: " ++ decimal (o_max_distance default_options) ++ lit ")").
Proof.
  intros fs word H. split; [|apply occurs_sound; vm_compute; reflexivity].
  unfold parse_opts in H. cbn [parse_args] in H.
  repeat match type of H with context [str_eqb word ?w] =>
    let E := fresh in destruct (str_eqb word w) eqn:E; cbn [orb] in H;
    [apply str_eqb_eq in E; subst word; apply occurs_sound; vm_compute; reflexivity|clear E] end.
  exfalso. apply H. reflexivity.
Qed.
Print Assumptions C76_help.

(** It consists of lines that fit a terminal of 80 columns. *)
Theorem C76_help_lines : exists ls, help = unlines ls /\ length ls = 22 /\
  forall l, In l ls -> length l <= 80 /\ ~ In (Ascii.ascii_of_N 10) l.
Proof.
  exists (removelast (lines_of help)). split; [vm_compute; reflexivity|]. split; [vm_compute; reflexivity|].
  assert (F : forallb (fun l => Nat.leb (length l) 80 && negb (existsb (Ascii.eqb (Ascii.ascii_of_N 10)) l)) (removelast (lines_of help)) = true) by (vm_compute; reflexivity).
  rewrite forallb_forall in F. intros l I. specialize (F l I). apply andb_prop in F. destruct F as (F1 & F2). split; [now apply Nat.leb_le|].
  intros X. apply negb_true_iff in F2. assert (Y : existsb (Ascii.eqb (Ascii.ascii_of_N 10)) l = true); [|congruence].
  apply existsb_exists. exists (Ascii.ascii_of_N 10). split; [exact X|apply Ascii.eqb_refl].
Qed.
Print Assumptions C76_help_lines.

Example C76_help_case : parse_opts (fun _ => Some []) [lit "--transposition"] <> inr RETURN_INVALID_ARG /\
  parse_opts (fun _ => Some []) [lit "--transpositions"] = inr RETURN_INVALID_ARG.
Proof. split; [discriminate|reflexivity]. Qed.

Theorem C76_messages : forall s gs rest fuel,
  (forall p, In (GivenDictionary p) gs -> s_files s p <> None) -> (forall k, In (GivenDistance k) gs -> (k <= SIZE_MAX)%N) ->
  let after := fun more err => s_args s = flat_map said gs ++ more -> shows s fuel = Ok ([], err) in
  after (lit "-h" :: rest) help /\ after (lit "--help" :: rest) help /\
  (forall p q, s_files s p = None -> quoted p q -> after (lit "--dictionary-path" :: p :: rest)
     (unlines [lit "--dictionary-path=<PATH> must exist!"; lit "--dictionary-path=" ++ q])) /\
  (forall name, In name [lit "--dictionary-path"; lit "--serialization-path"; lit "--max-distance"] ->
     after [name] (unlines [lit "Not enough command-line args!"])) /\
  (forall word, ~ In word [lit "-h"; lit "--help"; lit "--dictionary-path"; lit "--serialization-path"; lit "--max-distance";
       lit "--standard"; lit "--transposition"; lit "--merge-and-split"] ->
     after (word :: rest) (unlines [lit "Invalid argument: " ++ word] ++ help)) /\
  (forall d f d' f',
     d = last_or (fun g => match g with GivenDictionary p => Some p | _ => None end) (lit "../resources/programming-languages.txt") gs ->
     f = last_or (fun g => match g with GivenSerialization p => Some p | _ => None end) (lit "programming-languages.pb") gs ->
     s_files s d = None -> s_files s f = None -> quoted d d' -> quoted f f' ->
     after [] (unlines [lit "Either --dictionary-path=<PATH> or --serialization-path=<PATH> must exist";
       lit "--dictionary-path=" ++ d'; lit "--serialization-path=" ++ f'])).
Proof.
  intros s gs rest fuel Hd Hn after.
  assert (A : forall more c err, parse_opts (s_files s) (flat_map said gs ++ more) = inr c ->
    args_text (s_files s) default_options (flat_map said gs ++ more) = err -> after more err).
  { intros more c err P E Ea. unfold shows, demo_text. rewrite Ea, P, E. reflexivity. }
  destruct (C61_errors (s_files s) [] gs rest) as (_ & X). specialize (X Hd Hn). cbv zeta in X. destruct X as (X1 & X2 & X3 & X4 & X5).
  assert (Q : forall p q, quoted p q -> q = show_path p).
  { intros p q (i & Qi & ->). destruct (show_path_quoted p) as (j & Qj & ->). f_equal. f_equal.
    clear - Qi Qj. revert j Qj. induction Qi as [|c p s A B H IH|c p s A H IH]; intros j Qj;
      inversion Qj as [|c' p' s' A' B' H'|c' p' s' A' H']; subst; auto.
    - rewrite (IH _ H'). auto.
    - exfalso. destruct A'; congruence.
    - exfalso. destruct A; congruence.
    - rewrite (IH _ H'). auto. }
  split; [|split; [|split; [|split; [|split]]]].
  - eapply A; [exact X1|]. rewrite text_said by auto. reflexivity.
  - eapply A; [exact X2|]. rewrite text_said by auto. reflexivity.
  - intros p q Np Qp. eapply A; [apply X3, Np|]. rewrite text_said by auto. cbn [args_text].
    change (str_eqb (lit "--dictionary-path") (lit "-h") || str_eqb (lit "--dictionary-path") (lit "--help")) with false.
    rewrite str_eqb_refl. unfold exists_file. rewrite Np, (Q _ _ Qp). unfold unlines, endl. cbn [flat_map].
    rewrite <- !app_assoc, app_nil_r. reflexivity.
  - intros name I. eapply A; [apply X4, I|]. rewrite text_said by auto. cbn [In] in I.
    repeat (destruct I as [<-|I]; [vm_compute; reflexivity|]). destruct I.
  - intros word Nw. eapply A; [apply X5, Nw|]. rewrite text_said by auto. cbn [args_text]. cbn [In] in Nw.
    assert (Ne : forall w, In w [lit "-h"; lit "--help"; lit "--dictionary-path"; lit "--serialization-path"; lit "--max-distance";
       lit "--standard"; lit "--transposition"; lit "--merge-and-split"] -> str_eqb word w = false).
    { intros w I. destruct (str_eqb word w) eqn:E; auto. apply str_eqb_eq in E. subst. exfalso. apply Nw. exact I. }
    rewrite !Ne by (cbn [In]; tauto). cbn [orb]. unfold unlines, endl. cbn [flat_map]. rewrite <- !app_assoc. reflexivity.
  - intros d f d' f' Ed Ef Nd Nf Qd Qf. eapply A.
    + unfold parse_opts. rewrite parse_said by auto. cbn [parse_args]. rewrite apply_options.
      cbn [default_options o_dictionary o_serialization o_algorithm o_max_distance]. rewrite <- Ed, <- Ef. unfold exists_file.
      rewrite Nd, Nf. reflexivity.
    + rewrite text_said by auto. cbn [args_text]. rewrite apply_options.
      cbn [default_options o_dictionary o_serialization o_algorithm o_max_distance]. rewrite <- Ed, <- Ef. unfold exists_file.
      rewrite Nd, Nf. cbn [negb andb]. rewrite (Q _ _ Qd), (Q _ _ Qf). unfold unlines, endl. cbn [flat_map].
      rewrite <- !app_assoc, app_nil_r. reflexivity.
Qed.
Print Assumptions C76_messages.

Example C76_messages_case : let s := words_setting words_disk [lit "--standard"; lit "--dictionary-path"; lit "no""file"; lit "-h"] [] in
  parse_opts (s_files s) (s_args s) = inr RETURN_FILE_NOT_EXISTS /\
  s_args s = flat_map said [GivenAlgorithm STANDARD] ++ lit "--dictionary-path" :: lit "no""file" :: [lit "-h"] /\
  quoted (lit "no""file") (lit """no\""file""") /\
  shows s 0 = Ok ([], unlines [lit "--dictionary-path=<PATH> must exist!"; lit "--dictionary-path=""no\""file"""]).
Proof.
  cbv zeta. run. run. split; [|vm_compute; reflexivity]. exists (lit "no\""file"). split; [|reflexivity].
  do 2 (apply quotes_plain; [discriminate|discriminate|]). apply quotes_special; [auto|].
  do 4 (apply quotes_plain; [discriminate|discriminate|]). constructor.
Qed.

(** ** Texts of pairs of words and of nodes *)

(** Words without quotation marks can be read from the text of their pair. *)
Theorem C76_pair : forall u v u' v', ~ In """"%char u -> ~ In """"%char v -> ~ In """"%char u' -> ~ In """"%char v' ->
  (show_pair (symmetric_pair u v) = show_pair (symmetric_pair u' v') <-> (u = u' /\ v = v' \/ u = v' /\ v = u')).
Proof.
  intros u v u' v' Qu Qv Qu' Qv'.
  assert (Sp : forall a b, symmetric_pair a b = (a, b) \/ symmetric_pair a b = (b, a)) by (intros; unfold symmetric_pair; destruct (str_ltb _ _); auto).
  assert (In1 : forall a b c d x y, ~ In """"%char a -> ~ In """"%char b -> ~ In """"%char c -> ~ In """"%char d ->
    a ++ lit """, second=""" ++ b ++ x = c ++ lit """, second=""" ++ d ++ y -> a = c /\ b ++ x = d ++ y).
  { intros a b c d x y Na _ Nc _ E. revert c Nc E. induction a as [|e a IH]; intros [|f c] Nc E.
    - split; auto. apply (app_inv_head (lit """, second=""")) in E. auto.
    - injection E as E _. exfalso. apply Nc. left. auto.
    - injection E as E _. exfalso. apply Na. left. auto.
    - cbn [app] in E. injection E as -> E. destruct (IH (fun I => Na (or_intror I)) c (fun I => Nc (or_intror I)) E) as [-> ?]. auto. }
  assert (Inj : forall a b c d, ~ In """"%char a -> ~ In """"%char b -> ~ In """"%char c -> ~ In """"%char d ->
    show_pair (a, b) = show_pair (c, d) -> a = c /\ b = d).
  { intros a b c d Na Nb Nc Nd E. unfold show_pair in E. cbn [fst snd] in E. apply app_inv_head in E. apply In1 in E; auto.
    destruct E as [-> E]. apply app_inv_tail in E. auto. }
  split.
  - intros E. destruct (Sp u v) as [X|X], (Sp u' v') as [Y|Y]; rewrite X, Y in E; apply Inj in E; auto; tauto.
  - intros H. assert (K : ModelDistance.key_eqb (symmetric_pair u v) (symmetric_pair u' v') = true) by (apply symmetric_pair_eq; tauto).
    unfold ModelDistance.key_eqb in K. apply Bool.andb_true_iff in K. destruct K as [K1 K2]. apply str_eqb_eq in K1, K2.
    unfold show_pair. rewrite K1, K2. reflexivity.
Qed.
Print Assumptions C76_pair.

Example C76_pair_case : show_pair (symmetric_pair (lit "com") (lit "ab")) = lit "SymmetricPair{first=""ab"", second=""com""}" /\
  show_pair (symmetric_pair (lit "ab") (lit "com")) = lit "SymmetricPair{first=""ab"", second=""com""}".
Proof. split; vm_compute; reflexivity. Qed.

(** The smaller word comes first. *)
Theorem C76_pair_text : forall u v, exists a b, (a = u /\ b = v \/ a = v /\ b = u) /\ ~ lex_lt b a /\
  show_pair (symmetric_pair u v) = text_of_pair a b.
Proof.
  intros u v. unfold symmetric_pair. destruct (str_ltb u v) eqn:L.
  - exists u, v. split; [auto|]. split; [|reflexivity]. intros H. apply str_ltb_lex in L. apply (lex_irrefl u). eapply lex_trans; eauto.
  - exists v, u. split; [auto|]. split; [|reflexivity]. intros H. apply str_ltb_lex in H. congruence.
Qed.
Print Assumptions C76_pair_text.

(** Words with quotation marks cannot. *)
Theorem C76_pair_refuted : exists u v u' v', show_pair (symmetric_pair u v) = show_pair (symmetric_pair u' v') /\
  ~ (u = u' /\ v = v' \/ u = v' /\ v = u').
Proof.
  exists (lit "a"), (lit "b"", second=""c"), (lit "a"", second=""b"), (lit "c"). split; [vm_compute; reflexivity|].
  intros [[H _]|[H _]]; discriminate.
Qed.
Print Assumptions C76_pair_refuted.

(** The text of a node says whether it is final and which labels its edges have,
    in their order, and nothing else. *)
Theorem C76_node : forall n n', show_node n = show_node n' <-> nfin n = nfin n' /\ map fst (nedges n) = map fst (nedges n').
Proof.
  intros [f es] [f' es']. unfold show_node. cbn [nfin nedges]. split.
  - intros E. apply app_inv_head in E.
    assert (f = f' /\ show_edges 0 es ++ lit "}}" ++ [] = show_edges 0 es' ++ lit "}}" ++ []) as [-> X].
    { rewrite app_nil_r. destruct f, f'; try discriminate; apply app_inv_head in E; apply app_inv_head in E; auto. }
    apply show_edges_inj in X. tauto.
  - intros [-> E]. do 3 f_equal. assert (X : forall i, show_edges i es = show_edges i es').
    { clear - E. revert es' E. induction es as [|[c p] es IH]; intros [|[d q] es'] E i; try discriminate; auto.
      cbn [map fst] in E. injection E as -> E. cbn [show_edges]. rewrite (IH es' E). reflexivity. }
    rewrite X. reflexivity.
Qed.
Print Assumptions C76_node.

Theorem C76_node_text : forall n, text_of_node (nfin n) (map fst (nedges n)) (show_node n).
Proof.
  intros [f es]. cbn [nfin nedges]. exists (show_edges 0 es). split; [|reflexivity].
  destruct es as [|[c p] es]; [constructor|]. cbn [map fst show_edges app].
  assert (G : forall es i c p, with_commas (map (fun c => lit "'" ++ [c] ++ lit "':DawgNode{...}") (c :: map fst es))
    (show_edge (c, p) ++ show_edges (S i) es)).
  { clear. induction es as [|[d q] es IH]; intros i c p; cbn [map fst show_edges].
    - rewrite app_nil_r. constructor.
    - apply commas_more. apply (IH (S i) d q). }
  apply (G es 0%nat c p).
Qed.
Print Assumptions C76_node_text.

Example C76_node_case : show_node (Node true [("a"%char, 5%N); ("b"%char, 7%N)]) =
  lit "DawgNode{is_final=true, edges={'a':DawgNode{...}, 'b':DawgNode{...}}}".
Proof. vm_compute. reflexivity. Qed.

(** The text of a dictionary says how many terms it has and where its root lies, and
    nothing else. *)
Theorem C76_dictionary_text : forall d, (d_size d < 2 ^ 64)%N -> (d_root d < 2 ^ 64)%N ->
  exists address, address_text (d_root d) address /\
    show_dawg d = lit "Dawg{size=" ++ decimal (d_size d) ++ lit ", root=" ++ address ++ lit "}".
Proof.
  intros d L L'. exists (show_pointer (d_root d)). split; [apply show_pointer_ok; auto|].
  unfold show_dawg. rewrite show_size_decimal; auto. change SIZE_MAX with (2 ^ 64 - 1)%N. lia.
Qed.
Print Assumptions C76_dictionary_text.

Theorem C76_dictionary : forall d d', (d_size d < 2 ^ 64)%N -> (d_size d' < 2 ^ 64)%N ->
  (d_root d < 2 ^ 64)%N -> (d_root d' < 2 ^ 64)%N ->
  (show_dawg d = show_dawg d' <-> d_size d = d_size d' /\ d_root d = d_root d').
Proof.
  intros d d' L L' R R'. split; [|intros [E E']; unfold show_dawg; rewrite E, E'; reflexivity].
  assert (M : (d_size d <= SIZE_MAX /\ d_size d' <= SIZE_MAX)%N) by (change SIZE_MAX with (2 ^ 64 - 1)%N; lia). destruct M as [M M'].
  unfold show_dawg. intros E. apply app_inv_head in E. rewrite !show_size_decimal in E; auto.
  destruct (decimal_ok _ M) as (N1 & _ & F1), (decimal_ok _ M') as (N2 & _ & F2).
  change (lit ", root=") with (","%char :: lit " root=") in E. cbn [app] in E. apply digits_split in E; auto. destruct E as [E E']. split.
  - pose proof (digits_app _ _ [] N1) as A. pose proof (digits_app _ _ [] N2) as B. rewrite app_nil_r in A, B. cbn [digits] in A, B. congruence.
  - apply app_inv_head in E'. apply app_inj_tail in E'. destruct E' as [E' _].
    apply (address_fun (show_pointer (d_root d))); [apply show_pointer_ok; auto|]. rewrite E'. apply show_pointer_ok; auto.
Qed.
Print Assumptions C76_dictionary.

(** So two dictionaries that exist at a time are never printed alike, not even equal ones. *)
Theorem C76_dictionaries : forall alloc h0 terms1 terms2 h1 b1 h2 b2, allocator alloc ->
  runs_to (fun fuel => sorted_dawg fuel alloc h0 terms1) (h1, Some b1) ->
  runs_to (fun fuel => sorted_dawg fuel alloc h1 terms2) (h2, Some b2) ->
  (d_root (b_dawg b1) < 2 ^ 64)%N -> (d_root (b_dawg b2) < 2 ^ 64)%N ->
  show_dawg (b_dawg b1) <> show_dawg (b_dawg b2).
Proof.
  intros alloc h0 ts1 ts2 h1 b1 h2 b2 A R1 R2 L1 L2 E.
  apply sorted_dawg_built in R1, R2; auto. destruct R1 as (_ & Bu1 & _). destruct R2 as (_ & Bu2 & _).
  apply C76_dictionary in E; auto.
  - destruct E as [_ E]. pose proof (bu_new _ _ _ _ Bu2 _ (reach_refl _ _)) as F. rewrite <- E in F.
    destruct (unf_reach_alloc _ _ _ _ (bu_tree _ _ _ _ Bu1) (reach_refl _ _)) as (_ & n & G). congruence.
  - rewrite (bu_size _ _ _ _ Bu1). apply N.mod_lt. discriminate.
  - rewrite (bu_size _ _ _ _ Bu2). apply N.mod_lt. discriminate.
Qed.
Print Assumptions C76_dictionaries.

Example C76_dictionary_case : show_dawg (Dawg 48879%N 12%N) = lit "Dawg{size=12, root=0xbeef}" /\
  show_dawg (Dawg null 0%N) = lit "Dawg{size=0, root=0}" /\
  exists h1 b1 h2 b2, sorted_dawg 20 bump [] some_terms = Ok (h1, Some b1) /\ sorted_dawg 20 bump h1 some_terms = Ok (h2, Some b2) /\
    dawg_eq 20 h2 (b_dawg b1) (b_dawg b2) = Ok true /\ show_dawg (b_dawg b1) = lit "Dawg{size=4, root=0x1}" /\
    show_dawg (b_dawg b2) = lit "Dawg{size=4, root=0x8}".
Proof. split; [vm_compute; reflexivity|]. split; [vm_compute; reflexivity|]. eexists _, _, _, _.
  split; [vm_compute; reflexivity|]. split; [vm_compute; reflexivity|]. repeat split; vm_compute; reflexivity. Qed.
