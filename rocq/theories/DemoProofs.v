(** * DemoProofs: lemmas about the example program. *)
From Coq Require Import Sorting.Sorted Sorting.Permutation.
From Coq Require DecimalString DecimalN.
From Verif Require Import Base Spec ModelTransducer ModelDawg ModelSerial ModelWire ModelQuery ModelDemo
  SpecDawg SpecSerial SpecQuery SpecWire SpecDemo
  TreeProofs HeapProofs IterProofs BuildProofs2 DawgProofs QueryProofs QueryFacts WireProofs FileProofs SizeProofs SerialProofs.
Local Open Scope nat_scope.

(** ** Command line *)
Lemma read_size_max : forall v old, (old <= SIZE_MAX)%N -> (read_size v old <= SIZE_MAX)%N.
Proof.
  intros v old H. unfold read_size. destruct (skip_spaces v); auto.
  cbv zeta. match goal with |- context [(SIZE_MAX <? ?x)%N] => destruct (N.ltb_spec SIZE_MAX x) as [L|L] end; [apply N.le_refl|].
  destruct (ceqb a "-"); auto. unfold SIZE_MAX. pose proof (N.mod_lt (2 ^ 64 - digits 0 (if true || ceqb a "+" then l else a :: l)) (2 ^ 64) ltac:(discriminate)).
  change W with (2 ^ 64)%N. lia.
Qed.

Lemma parse_args_max : forall fs n args o o', length args <= n -> (o_max_distance o <= SIZE_MAX)%N ->
  parse_args fs o args = inl o' -> (o_max_distance o' <= SIZE_MAX)%N.
Proof.
  intros fs. induction n as [|n IH]; intros [|arg args] o o' Ln H E; cbn [length] in Ln; try lia;
    try (injection E as <-; exact H).
  cbn [parse_args] in E.
  repeat match type of E with
  | (if ?b then _ else _) = _ => destruct b
  | match ?l with [] => _ | _ :: _ => _ end = _ => destruct l; cbn [length] in Ln
  end; try discriminate; (eapply IH; [|idtac|exact E]; [lia|]); cbn; auto using read_size_max.
Qed.

Lemma parse_opts_max : forall fs args o, parse_opts fs args = inl o -> (o_max_distance o <= SIZE_MAX)%N.
Proof.
  intros fs args o E. unfold parse_opts in E. destruct (parse_args fs default_options args) as [o'|] eqn:P; [|discriminate].
  destruct (negb _ && negb _); [discriminate|]. injection E as <-. eapply parse_args_max; eauto. vm_compute. discriminate.
Qed.

(** ** Lines *)
Lemma to_newline_line : forall l rest, one_line l -> to_newline (l ++ newline :: rest) = (l, true, rest).
Proof.
  induction l as [|c l IH]; intros rest N; cbn [app to_newline]; auto.
  unfold ceqb. destruct (Ascii.eqb_spec c newline) as [->|D]; [exfalso; apply N; left; auto|].
  rewrite IH; auto. intros I. apply N. right. auto.
Qed.

Lemma to_newline_end : forall l, one_line l -> to_newline l = (l, false, []).
Proof.
  induction l as [|c l IH]; intros N; cbn [to_newline]; auto.
  unfold ceqb. destruct (Ascii.eqb_spec c newline) as [->|D]; [exfalso; apply N; left; auto|].
  rewrite IH; auto. intros I. apply N. right. auto.
Qed.

Lemma getline_line : forall l rest old, one_line l ->
  getline (IStream (l ++ newline :: rest) false false) old = (IStream rest false false, l).
Proof. intros. unfold getline. cbn [eofbit failbit unread orb]. rewrite to_newline_line; auto. Qed.

Lemma getline_end : forall l old, one_line l ->
  getline (IStream l false false) old = (IStream [] true (match l with [] => true | _ => false end), l).
Proof. intros. unfold getline. cbn [eofbit failbit unread orb]. rewrite to_newline_end; auto. Qed.

Lemma getline_after_end : forall u f old, getline (IStream u true f) old = (IStream u true true, old).
Proof. auto. Qed.

Lemma unlines_cons : forall l ls rest, unlines (l :: ls) ++ rest = l ++ newline :: (unlines ls ++ rest).
Proof. intros. cbn. rewrite <- !app_assoc. reflexivity. Qed.

Lemma read_terms_ok : forall ls tail, (forall l, In l ls -> one_line l) -> one_line tail ->
  forall fuel old, S (S (length ls)) <= fuel ->
  read_terms fuel (IStream (unlines ls ++ tail) false false) old = Ok (ls ++ match tail with [] => [] | _ => [tail] end).
Proof.
  induction ls as [|l ls IH]; intros tail N Nt fuel old F.
  - destruct fuel as [|[|fuel]]; cbn [length] in F; try lia. cbn [unlines flat_map app]. cbn [read_terms].
    rewrite getline_end by auto. destruct tail as [|c tail]; cbn [failbit]; auto.
  - destruct fuel as [|fuel]; [lia|]. cbn [read_terms]. rewrite unlines_cons.
    rewrite getline_line by (apply N; left; auto). cbn [failbit]. cbn [length] in F.
    rewrite IH; [reflexivity| |auto|lia]. intros x I. apply N. right. auto.
Qed.

Lemma dictionary_terms_ok : forall file ls, file_lines file ls -> runs_to (fun fuel => dictionary_terms fuel file) ls.
Proof.
  intros [bytes|] ls H; cbn in H.
  - exists (S (S (S (length ls)))). intros fuel F. cbn [dictionary_terms].
    destruct H as (N & [->|(front & l & -> & Ne & ->)]).
    + pose proof (read_terms_ok ls [] N (fun x => x) fuel [] ltac:(lia)) as E. rewrite !app_nil_r in E. exact E.
    + rewrite app_length in F. cbn [length] in F. rewrite read_terms_ok.
      * destruct l; [congruence|auto].
      * intros x I. apply N, in_or_app. auto.
      * apply N, in_or_app. right. left. auto.
      * lia.
  - subst. exists 0. auto.
Qed.

(** ** Sorting *)
Lemma insert_term_In : forall t ts x, In x (insert_term t ts) <-> x = t \/ In x ts.
Proof.
  intros t. induction ts as [|u ts IH]; intros x; cbn; [intuition|]. destruct (str_ltb u t); cbn; [rewrite IH|]; intuition.
Qed.

Lemma sort_terms_In : forall ts x, In x (sort_terms ts) <-> In x ts.
Proof. induction ts as [|t ts IH]; intros x; cbn; [tauto|]. rewrite insert_term_In, IH. intuition. Qed.

Lemma insert_term_concat : forall t ts, length (concat (insert_term t ts)) = length t + length (concat ts).
Proof.
  intros t. induction ts as [|u ts IH]; cbn; [rewrite app_length; auto|]. destruct (str_ltb u t); cbn; rewrite !app_length; lia.
Qed.

Lemma sort_terms_concat : forall ts, length (concat (sort_terms ts)) = length (concat ts).
Proof. induction ts as [|t ts IH]; cbn [sort_terms fold_right concat]; auto. fold (sort_terms ts). rewrite insert_term_concat, app_length. lia. Qed.

Lemma insert_term_ascending : forall t ts, ascending ts -> ascending (insert_term t ts).
Proof.
  unfold ascending. intros t ts A. induction A as [|u|u v l L A IH]; cbn.
  - constructor.
  - destruct (str_ltb u t) eqn:E; (constructor; [|constructor]).
    + right. apply str_ltb_lex; auto.
    + apply lex_le_not_lt. intros X. apply str_ltb_lex in X. congruence.
  - cbn in IH. destruct (str_ltb u t) eqn:E.
    + destruct (str_ltb v t); constructor; auto. right. apply str_ltb_lex; auto.
    + constructor; [|constructor; auto]. apply lex_le_not_lt. intros X. apply str_ltb_lex in X. congruence.
Qed.

Lemma sort_terms_ascending : forall ts, ascending (sort_terms ts).
Proof. induction ts as [|t ts IH]; cbn; [constructor|apply insert_term_ascending; auto]. Qed.

(** ** The loop *)
Lemma within : forall o fs args terms qs q, parse_opts fs args = inl o -> sizes_fit terms qs -> In q qs ->
  within_limits terms q (o_max_distance o).
Proof. intros o fs args terms qs q P (Sq & St) I. split; [apply manageable_short; auto|]. split; [eapply parse_opts_max; eauto|auto]. Qed.

Definition answered (alg : algorithm) (n : N) (terms : list str) (q : str) : list answer :=
  map (fun '(t, k) => (q, t, k)) (scored alg terms q n).

Lemma answered_right : forall alg n terms terms' q, (forall t, In t terms <-> In t terms') ->
  right_answers alg n terms' q (answered alg n terms q).
Proof.
  intros alg n terms terms' q Eq. unfold answered. split.
  - rewrite map_map. rewrite (map_ext _ fst) by (intros [t k]; auto). rewrite scored_fst. apply StronglySorted_sorted_by, found_sorted.
  - intros q' w k. rewrite in_map_iff, <- Eq. split.
    + intros ([t j] & X & I). injection X as <- <- <-. apply scored_In in I. tauto.
    + intros (-> & I). exists (w, k). split; auto. apply scored_In. auto.
Qed.

Lemma answer_query_ok : forall h d o terms q, unf h (d_root d) (trie terms) -> within_limits terms q (o_max_distance o) ->
  runs_to (fun fuel => answer_query fuel h d o q) (answered (o_algorithm o) (o_max_distance o) terms q).
Proof.
  intros h d o terms q U L. destruct (query_all_unf _ as_candidate (o_algorithm o) terms h d q _ U L) as (B & E).
  exists B. intros fuel F. unfold answer_query. rewrite (E fuel F). cbn [rbind]. unfold answered. f_equal. f_equal.
  rewrite <- (map_id (scored _ _ _ _)) at 2. apply map_ext. intros [t k]. reflexivity.
Qed.

Lemma prompt_loop_ok : forall h d o terms, unf h (d_root d) (trie terms) ->
  forall qs, (forall q, In q qs -> within_limits terms q (o_max_distance o)) -> (forall q, In q qs -> q <> [] /\ one_line q) ->
  forall tail, tail = [] \/ (exists more, tail = newline :: more) ->
  exists B, forall rounds fuel old, S (length qs) <= rounds -> B <= fuel ->
    prompt_loop rounds fuel h d o (IStream (unlines qs ++ tail) false false) old =
      Ok (concat (map (answered (o_algorithm o) (o_max_distance o) terms) qs)).
Proof.
  intros h d o terms U. induction qs as [|q qs IH]; intros L N tail T.
  - exists 0. intros [|rounds] fuel old R _; cbn [length] in R; [lia|]. cbn [unlines flat_map app prompt_loop].
    destruct T as [->|(more & ->)].
    + reflexivity.
    + change (newline :: more) with ([] ++ newline :: more). rewrite getline_line by (intros []). reflexivity.
  - destruct (N q (or_introl eq_refl)) as (Nq & Oq).
    destruct (IH (fun p I => L p (or_intror I)) (fun p I => N p (or_intror I)) tail T) as (B & E).
    destruct (answer_query_ok h d o terms q U (L q (or_introl eq_refl))) as (B' & E').
    exists (Nat.max B B'). intros [|rounds] fuel old R F; [lia|]. cbn [prompt_loop]. rewrite unlines_cons, getline_line by auto.
    destruct q as [|c q]; [congruence|]. rewrite (E' fuel ltac:(lia)). cbn [rbind]. cbn [length] in R.
    rewrite (E rounds fuel (c :: q)) by lia. reflexivity.
Qed.

Lemma types_prompt : forall h d o terms stdin qs, unf h (d_root d) (trie terms) ->
  (forall q, In q qs -> within_limits terms q (o_max_distance o)) -> types stdin qs ->
  runs_to (fun fuel => prompt_loop fuel fuel h d o (IStream stdin false false) [])
    (concat (map (answered (o_algorithm o) (o_max_distance o) terms) qs)).
Proof.
  intros h d o terms stdin qs U L (N & T).
  assert (exists tail, stdin = unlines qs ++ tail /\ (tail = [] \/ exists more, tail = newline :: more)) as (tail & -> & Ht).
  { destruct T as [->|(more & ->)]; [exists []; rewrite app_nil_r|]; eauto. }
  destruct (prompt_loop_ok h d o terms U qs L N tail Ht) as (B & E). exists (B + S (length qs)). intros fuel F. apply E; lia.
Qed.

Lemma answered_prints : forall o terms terms' qs, (forall t, In t terms <-> In t terms') ->
  prints o terms' qs (concat (map (answered (o_algorithm o) (o_max_distance o) terms) qs)).
Proof.
  intros o terms terms' qs Eq. exists (map (answered (o_algorithm o) (o_max_distance o) terms) qs). split; [|reflexivity].
  induction qs as [|q qs IH]; cbn [map]; constructor; auto. apply answered_right; auto.
Qed.

(** ** Saving *)
Lemma serialize_file_ok : forall size split opens room old h d t, unf h (d_root d) t ->
  exists ok file m, runs_to (fun fuel => serialize_file fuel size split opens room old h d) (ok, file) /\
    runs_to (fun fuel => to_protobuf fuel h d) m /\
    (opens = true -> splitter split -> not_too_long m -> (N.of_nat (length (encode m)) <= room)%N -> file = Some (encode m)).
Proof.
  intros size split opens room old h d t U. destruct (to_protobuf_all h d t U) as (m & (B & R) & De).
  destruct opens.
  - destruct (serialize_to size split (OFile true [] [] room) m) as [ok f] eqn:E.
    exists ok, (Some (ModelWire.written (flush f []))), m. split; [|split; [exists B; auto|]].
    + exists B. intros fuel F. unfold serialize_file, serialize_stream. rewrite (R fuel F). cbn [rbind]. rewrite E. reflexivity.
    + intros _ Sp Lm Rm. unfold serialize_to in E. destruct (N.leb_spec (N.of_nat (length (encode m))) INT_MAX); [|unfold not_too_long in Lm; lia].
      injection E as <- <-. pose proof (sound_all size room (split (encode m))) as So. rewrite Sp in So.
      rewrite (closed _ _ _ So). rewrite firstn_all2 by lia. auto.
  - destruct (serialize_to size split (OFile false [] [] room) m) as [ok f] eqn:E.
    exists ok, old, m. split; [|split; [exists B; auto|discriminate]].
    exists B. intros fuel F. unfold serialize_file, serialize_stream. rewrite (R fuel F). cbn [rbind]. rewrite E. reflexivity.
Qed.

Lemma str_eqb_refl : forall s, str_eqb s s = true.
Proof. unfold str_eqb. induction s as [|c s IH]; cbn; auto. rewrite N.compare_refl. auto. Qed.

Lemma str_eqb_eq : forall s t, str_eqb s t = true -> s = t.
Proof.
  unfold str_eqb. induction s as [|c s IH]; intros [|d t]; cbn; try discriminate; auto.
  destruct (N.compare_spec (uchar c) (uchar d)) as [E|E|E]; try discriminate. intros H. f_equal; auto.
  unfold uchar in E. rewrite <- (ascii_N_embedding c), <- (ascii_N_embedding d). congruence.
Qed.

(** ** A run after the dictionary has been found *)
Definition load (fuel : nat) (s : setting) (o : options) : res (heap * option builder) :=
  do (h, restored) <- deserialize_file (s_alloc s) [] (s_files s (o_serialization o));
  match restored with
  | Some b => Ok (h, Some b)
  | None =>
      do terms <- dictionary_terms fuel (s_files s (o_dictionary o));
      sorted_dawg fuel (s_alloc s) h (sort_terms terms)
  end.

Lemma run_load : forall s fuel o, parse_opts (s_files s) (s_args s) = inl o ->
  run s fuel =
    (do (h1, dictionary) <- load fuel s o;
     match dictionary with
     | None => UB
     | Some b =>
         do out <- prompt_loop fuel fuel h1 (b_dawg b) o (IStream (s_stdin s) false false) [];
         do (_, file) <- serialize_file fuel (s_size s) (s_split s) (s_opens s) (s_room s) (s_files s (o_serialization o)) h1 (b_dawg b);
         do h2 <- destroy fuel h1 b;
         Ok (Outcome RETURN_SUCCESS out (set_file (s_files s) (o_serialization o) file) h1 h2)
     end).
Proof.
  intros s fuel o P. unfold run, demo, load. rewrite P.
  destruct (deserialize_file (s_alloc s) [] (s_files s (o_serialization o))) as [[h r]| |]; cbn [rbind]; auto.
Qed.

Lemma run_ok : forall s o h b terms terms' qs, parse_opts (s_files s) (s_args s) = inl o -> sensible s ->
  runs_to (fun fuel => load fuel s o) (h, Some b) ->
  unf h (d_root (b_dawg b)) (trie terms) -> (forall t, In t terms <-> In t terms') ->
  (exists h', runs_to (fun fuel => destroy fuel h b) h' /\ same_heap h' []) ->
  types (s_stdin s) qs -> sizes_fit terms' qs ->
  exists r m, runs_to (run s) r /\ code r = RETURN_SUCCESS /\ prints o terms' qs (printed r) /\
    (forall p, hget (memory r) p = None) /\ saved_from r = h /\
    (forall p, p <> o_serialization o -> files r p = s_files s p) /\
    runs_to (fun fuel => to_protobuf fuel h (b_dawg b)) m /\
    (s_opens s = true -> not_too_long m -> (N.of_nat (length (encode m)) <= s_room s)%N ->
     files r (o_serialization o) = Some (encode m)).
Proof.
  intros s o h b terms terms' qs P (Al & Sp) (B1 & E1) U Eq (h2 & (B2 & E2) & Sh) T Sz.
  assert (L : forall q, In q qs -> within_limits terms q (o_max_distance o)).
  { intros q I. destruct (within _ _ _ _ _ _ P Sz I) as (A1 & A2 & A3). split; auto. split; auto.
    intros t It. apply A3, Eq, It. }
  destruct (types_prompt h (b_dawg b) o terms _ qs U L T) as (B3 & E3).
  destruct (serialize_file_ok (s_size s) (s_split s) (s_opens s) (s_room s) (s_files s (o_serialization o)) h (b_dawg b) _ U)
    as (ok & file & m & (B4 & E4) & Rm & Hf).
  eexists (Outcome _ _ _ _ _), m. split.
  { exists (B1 + B2 + B3 + B4). intros fuel F. rewrite (run_load _ _ _ P), E1 by lia. cbn [rbind].
    rewrite E3 by lia. cbn [rbind]. rewrite E4 by lia. cbn [rbind]. rewrite E2 by lia. cbn [rbind]. reflexivity. }
  cbn [code printed memory saved_from files]. split; auto. split; [apply answered_prints; auto|]. split; [exact Sh|]. split; auto.
  split; [|split; auto].
  - intros p Np. unfold set_file. destruct (str_eqb p (o_serialization o)) eqn:E; auto. apply str_eqb_eq in E. congruence.
  - intros So Lm Rm'. unfold set_file. rewrite str_eqb_refl. auto.
Qed.

Lemma load_fresh : forall s o terms, sensible s -> parse_from (s_files s (o_serialization o)) = Ok None ->
  file_lines (s_files s (o_dictionary o)) terms ->
  exists h b, runs_to (fun fuel => load fuel s o) (h, Some b) /\ dictionary (sort_terms terms) h (b_dawg b) /\
    exists h', runs_to (fun fuel => destroy fuel h b) h' /\ same_heap h' [].
Proof.
  intros s o terms (Al & Sp) Pn Fl. destruct (dictionary_terms_ok _ _ Fl) as (B1 & E1).
  destruct (sorted_dawg_ok (s_alloc s) [] (sort_terms terms) Al (sort_terms_ascending terms)) as (h & b & R & Bu & Wk).
  exists h, b. split; [|split; [eapply dictionary_sorted; eauto|eapply destroy_built; eauto]].
  destruct R as (B2 & E2). exists (B1 + B2). intros fuel F. unfold load, deserialize_file. rewrite Pn. cbn [rbind deserialize].
  rewrite E1 by lia. cbn [rbind]. apply E2. lia.
Qed.

Lemma destroy_restored : forall alloc terms h d m h1 h2 b, allocator alloc -> dictionary terms h d ->
  runs_to (fun fuel => to_protobuf fuel h d) m -> from_protobuf alloc h1 m = Ok (h2, b) ->
  exists h3, runs_to (fun fuel => destroy fuel h2 b) h3 /\ same_heap h3 h1.
Proof.
  intros alloc terms h d m h1 h2 b A D R E. pose proof (dictionary_restored _ _ _ _ _ _ _ _ D R A E) as D2.
  destruct (dictionary_unf _ _ _ D) as (U & As & S). destruct (dictionary_unf _ _ _ D2) as (U2 & _ & S2).
  pose proof (written h d m _ U R) as De.
  destruct (restored_copy alloc h d _ m h1 A U De) as (f & h' & E' & C).
  rewrite E' in E. injection E as <- <-. cbn [b_dawg d_root d_size] in *.
  eapply cleaned_destroy_ok; cbn; auto.
  - exact U2.
  - intros x Rx. apply (copy_reach _ _ _ _ _ _ C U) in Rx. destruct Rx as (p & Rp & ->). apply (cp_fresh _ _ _ _ _ C); auto.
  - intros x Nx. apply (cp_rest _ _ _ _ _ C). intros p Rp ->. apply Nx. apply (copy_reach _ _ _ _ _ _ C U). eauto.
Qed.

Lemma message_in_range : forall terms h d m, dictionary terms h d -> addresses_fit h ->
  runs_to (fun fuel => to_protobuf fuel h d) m -> in_range m.
Proof.
  intros terms h d m D A R. destruct (dictionary_unf _ _ _ D) as (U & _ & S). pose proof (written h d m _ U R) as De.
  assert (Al : forall x, reach h (d_root d) x -> (x < 2 ^ 64)%N).
  { intros x Rx. destruct (unf_reach_alloc _ _ _ _ U Rx) as (Nx & n & G). apply A. unfold allocated. congruence. }
  constructor.
  - intros i I. apply Al, (ds_nodes _ _ _ De), I.
  - intros i I. apply Al. apply (ds_finals _ _ _ De) in I. apply I.
  - intros e I. apply (ds_edges _ _ _ De) in I. destruct I as (x & c & q & -> & Rx & n & G & I). cbn.
    split; [apply Al; auto|]. split; [destruct c as [[] [] [] [] [] [] [] []]; reflexivity|]. apply Al. eapply reach_step; eauto.
  - rewrite (ds_root _ _ _ De). apply Al, reach_refl.
  - rewrite (ds_size _ _ _ De), S. apply N.mod_lt. discriminate.
Qed.

Lemma load_saved : forall s o terms h d m, sensible s -> dictionary terms h d -> addresses_fit h ->
  runs_to (fun fuel => to_protobuf fuel h d) m -> not_too_long m -> s_files s (o_serialization o) = Some (encode m) ->
  exists h2 b, runs_to (fun fuel => load fuel s o) (h2, Some b) /\ dictionary terms h2 (b_dawg b) /\
    exists h', runs_to (fun fuel => destroy fuel h2 b) h' /\ same_heap h' [].
Proof.
  intros s o terms h d m (Al & Sp) D A R Lm F. pose proof (message_in_range _ _ _ _ D A R) as Ra.
  destruct (dictionary_unf _ _ _ D) as (U & _ & _). pose proof (written h d m _ U R) as De.
  destruct (restored_copy (s_alloc s) h d _ m [] Al U De) as (f & h2 & E & _).
  eexists h2, _. split; [|split; [eapply dictionary_restored; eauto|eapply destroy_restored; eauto]].
  exists 0. intros fuel _. unfold load, deserialize_file. rewrite F. cbn [parse_from]. rewrite (decode_encode _ Ra Lm).
  cbn [rbind deserialize]. rewrite E. cbn [rbind]. reflexivity.
Qed.

(** What is in the file at [path]. *)
Definition kept (path : str) (terms : list str) (fs : disk) : Prop :=
  exists ts h d m, dictionary ts h d /\ (forall t, In t ts <-> In t terms) /\ length (concat ts) = length (concat terms) /\
    addresses_fit h /\ runs_to (fun fuel => to_protobuf fuel h d) m /\ not_too_long m /\ fs path = Some (encode m).

Lemma keep : forall s o terms ts h b r m, can_save s terms r -> saved_from r = h ->
  dictionary ts h (b_dawg b) -> (forall t, In t ts <-> In t terms) -> length (concat ts) = length (concat terms) ->
  runs_to (fun fuel => to_protobuf fuel h (b_dawg b)) m ->
  (s_opens s = true -> not_too_long m -> (N.of_nat (length (encode m)) <= s_room s)%N ->
     files r (o_serialization o) = Some (encode m)) ->
  kept (o_serialization o) terms (files r).
Proof.
  intros s o terms ts h b r m (Op & Af & Ro & Le) Sf D Eq Ln R F. subst h.
  destruct (dictionary_unf _ _ _ D) as (U & _ & _). pose proof (message_length _ _ _ _ U (written _ _ _ _ U R)) as Lm.
  rewrite Ln in Lm. unfold characters in *.
  assert (not_too_long m) by (unfold not_too_long; lia).
  exists ts, (saved_from r), (b_dawg b), m. repeat (split; [assumption|]). apply F; auto. lia.
Qed.

Lemma saved_kept : forall path terms fs, saved path terms fs -> kept path terms fs.
Proof.
  intros path terms fs S. induction S as [s o qs r Se P <- Pn Fl T Sz R Cs|s o qs r S IH Se P <- T Sz R Cs|fs fs' S IH E].
  - destruct (load_fresh s o terms Se Pn Fl) as (h & b & Lo & D & De). destruct (dictionary_unf _ _ _ D) as (U & _ & _).
    destruct (run_ok s o h b _ terms qs P Se Lo U (sort_terms_In terms) De T Sz) as (r' & m & R' & _ & _ & _ & Sf & _ & Rm & F).
    rewrite <- (runs_to_det _ _ _ _ R R') in *. eapply keep; eauto using sort_terms_In, sort_terms_concat.
  - destruct IH as (ts & h0 & d0 & m0 & D0 & Eq & Ln & Af & R0 & Lm & F0).
    destruct (load_saved s o ts h0 d0 m0 Se D0 Af R0 Lm F0) as (h & b & Lo & D & De). destruct (dictionary_unf _ _ _ D) as (U & _ & _).
    destruct (run_ok s o h b _ terms qs P Se Lo U Eq De T Sz) as (r' & m & R' & _ & _ & _ & Sf & _ & Rm & F).
    rewrite <- (runs_to_det _ _ _ _ R R') in *. eapply keep; eauto.
  - destruct IH as (ts & h & d & m & H). exists ts, h, d, m. rewrite E. exact H.
Qed.

(** ** A run without a root *)
Lemma run_null : forall s o h b, parse_opts (s_files s) (s_args s) = inl o ->
  runs_to (fun fuel => load fuel s o) (h, Some b) -> d_root (b_dawg b) = null -> runs_into_ub (run s).
Proof.
  intros s o h b P (B & E) N. exists (S B). intros fuel F. rewrite (run_load _ _ _ P), E by lia. cbn [rbind].
  destruct fuel as [|fuel]; [lia|]. cbn [prompt_loop].
  destruct (getline _ []) as [s' [|c q]].
  - cbn [rbind]. unfold serialize_file, serialize_stream, to_protobuf. rewrite N. destruct (s_opens s); reflexivity.
  - unfold answer_query, query_all, begin_query, new_query, new_transducer. rewrite N. reflexivity.
Qed.

(** ** Input that ends in the middle of a line *)
Lemma prompt_stuck : forall rounds fuel h d o u f c q out,
  prompt_loop rounds fuel h d o (IStream u true f) (c :: q) <> Ok out.
Proof.
  induction rounds as [|rounds IH]; intros fuel h d o u f c q out; cbn [prompt_loop]; [discriminate|].
  rewrite getline_after_end. destruct (answer_query fuel h d o (c :: q)); cbn [rbind]; try discriminate.
  destruct (prompt_loop rounds fuel h d o (IStream u true true) (c :: q)) eqn:E; cbn [rbind]; try discriminate.
  exfalso. eapply IH; eauto.
Qed.

Lemma prompt_leaves : forall qs q, (forall p, In p (qs ++ [q]) -> p <> [] /\ one_line p) ->
  forall rounds fuel h d o old out, prompt_loop rounds fuel h d o (IStream (unlines qs ++ q) false false) old <> Ok out.
Proof.
  induction qs as [|p qs IH]; intros q N rounds fuel h d o old out.
  - destruct (N q ltac:(left; auto)) as (Nq & Oq). cbn [unlines flat_map app]. destruct rounds as [|rounds]; cbn [prompt_loop]; [discriminate|].
    rewrite getline_end by auto. destruct q as [|c q]; [congruence|].
    destruct (answer_query fuel h d o (c :: q)); cbn [rbind]; try discriminate.
    destruct (prompt_loop rounds fuel h d o (IStream [] true false) (c :: q)) eqn:E; cbn [rbind]; try discriminate.
    exfalso. eapply prompt_stuck; eauto.
  - destruct (N p ltac:(left; auto)) as (Np & Op). destruct rounds as [|rounds]; cbn [prompt_loop]; [discriminate|].
    rewrite unlines_cons, getline_line by auto. destruct p as [|c p]; [congruence|].
    destruct (answer_query fuel h d o (c :: p)); cbn [rbind]; try discriminate.
    destruct (prompt_loop rounds fuel h d o (IStream (unlines qs ++ q) false false) (c :: p)) eqn:E; cbn [rbind]; try discriminate.
    exfalso. eapply IH; eauto. intros x I. apply N. right. auto.
Qed.

Lemma prompt_stuck_oof : forall h d o c q fuel a, answer_query fuel h d o (c :: q) = Ok a ->
  forall rounds u f, prompt_loop rounds fuel h d o (IStream u true f) (c :: q) = OOF.
Proof.
  intros h d o c q fuel a E. induction rounds as [|rounds IH]; intros u f; cbn [prompt_loop]; auto.
  rewrite getline_after_end, E. cbn [rbind]. rewrite IH. auto.
Qed.

Lemma prompt_leaves_oof : forall h d o terms, unf h (d_root d) (trie terms) -> forall qs q,
  (forall p, In p (qs ++ [q]) -> p <> [] /\ one_line p) ->
  (forall p, In p (qs ++ [q]) -> within_limits terms p (o_max_distance o)) ->
  exists B, forall fuel rounds old, B <= fuel -> prompt_loop rounds fuel h d o (IStream (unlines qs ++ q) false false) old = OOF.
Proof.
  intros h d o terms U. induction qs as [|p qs IH]; intros q N L.
  - destruct (N q ltac:(left; auto)) as (Nq & Oq). destruct (answer_query_ok h d o terms q U (L q ltac:(left; auto))) as (B & E).
    exists B. intros fuel rounds old F. destruct rounds as [|rounds]; cbn [prompt_loop unlines flat_map app]; auto.
    rewrite getline_end by auto. destruct q as [|c q]; [congruence|]. rewrite (E fuel F). cbn [rbind].
    rewrite (prompt_stuck_oof _ _ _ _ _ _ _ (E fuel F)). auto.
  - destruct (N p ltac:(left; auto)) as (Np & Op). destruct (answer_query_ok h d o terms p U (L p ltac:(left; auto))) as (B & E).
    destruct (IH q (fun x I => N x (or_intror I)) (fun x I => L x (or_intror I))) as (B' & E').
    exists (B + B'). intros fuel rounds old F. destruct rounds as [|rounds]; cbn [prompt_loop]; auto.
    rewrite unlines_cons, getline_line by auto. destruct p as [|c p]; [congruence|]. rewrite E by lia. cbn [rbind].
    rewrite E' by lia. auto.
Qed.

(** ** Numbers *)
Definition uint_str (d : Decimal.uint) : str := lit (DecimalString.NilEmpty.string_of_uint d).

Lemma digits_acc : forall d p rest, (match rest with c :: _ => is_digit c = false | [] => True end) ->
  digits (Npos p) (uint_str d ++ rest) = Npos (Pos.of_uint_acc d p).
Proof.
  induction d; intros p rest R; cbn [uint_str lit String.list_ascii_of_string DecimalString.NilEmpty.string_of_uint app Pos.of_uint_acc].
  { destruct rest as [|c rest]; cbn [app digits]; auto. rewrite R. auto. }
  all: cbn [digits]; match goal with |- (if is_digit ?c then _ else _) = _ => change (is_digit c) with true end; cbn [uchar];
    match goal with |- context [(uchar ?c - 48)%N] => let v := eval vm_compute in (uchar c - 48)%N in change (uchar c - 48)%N with v end;
    match goal with |- digits ?a _ = Npos (Pos.of_uint_acc _ ?b) => replace a with (Npos b) by lia end;
    apply IHd; auto.
Qed.

Lemma digits_uint : forall d rest, (match rest with c :: _ => is_digit c = false | [] => True end) ->
  digits 0 (uint_str d ++ rest) = N.of_uint d.
Proof.
  induction d; intros rest R.
  { destruct rest as [|c rest]; cbn; auto. rewrite R. auto. }
  1: exact (IHd rest R).
  all: refine (digits_acc d _ rest R).
Qed.

Lemma decimal_uint : forall n, exists d, decimal n = uint_str d /\ N.of_uint d = n /\ d <> Decimal.Nil.
Proof.
  intros n. unfold decimal, DecimalString.NilZero.string_of_uint. destruct (N.to_uint n) eqn:E.
  { exists (Decimal.D0 Decimal.Nil). split; auto. split; [|discriminate]. rewrite <- (DecimalN.Unsigned.of_to n), E. reflexivity. }
  all: rewrite <- E; exists (N.to_uint n); split; [reflexivity|split; [apply DecimalN.Unsigned.of_to|congruence]].
Qed.

Lemma uint_str_head : forall d, d <> Decimal.Nil -> exists c s, uint_str d = c :: s /\ is_digit c = true.
Proof. destruct d; intros H; [congruence|..]; eexists _, _; split; reflexivity. Qed.

Lemma is_digit_not : forall c, is_digit c = true -> is_space c = false /\ ceqb c "-" = false /\ ceqb c "+" = false.
Proof. intros c. destruct c as [[] [] [] [] [] [] [] []]; vm_compute; intros H; try discriminate; auto. Qed.

Lemma read_size_decimal : forall n old, read_size (decimal n) old = N.min n SIZE_MAX.
Proof.
  intros n old. destruct (decimal_uint n) as (d & -> & E & Nn). destruct (uint_str_head d Nn) as (c & s & Es & Dc).
  destruct (is_digit_not c Dc) as (A & B & C). unfold read_size. rewrite Es. cbn [skip_spaces]. rewrite A, B, C. cbn [orb].
  rewrite <- Es. pose proof (digits_uint d [] I) as X. rewrite app_nil_r in X. rewrite X, E.
  destruct (N.ltb_spec SIZE_MAX n); lia.
Qed.

Lemma read_size_negative : forall n old, (n <= SIZE_MAX)%N -> read_size ("-"%char :: decimal n) old = ((2 ^ 64 - n) mod 2 ^ 64)%N.
Proof.
  intros n old H. destruct (decimal_uint n) as (d & -> & E & Nn). unfold read_size.
  change (skip_spaces ("-"%char :: uint_str d)) with ("-"%char :: uint_str d). cbv zeta.
  cbv iota beta. change (ceqb "-" "-") with true. cbn [orb]. pose proof (digits_uint d [] I) as X. rewrite app_nil_r in X. rewrite X, E.
  destruct (N.ltb_spec SIZE_MAX n); [lia|auto].
Qed.

Lemma read_size_blank : forall v old, (forall c, In c v -> is_space c = true) -> read_size v old = old.
Proof.
  intros v old H. unfold read_size. assert (skip_spaces v = []) as ->; auto.
  induction v as [|c v IH]; cbn; auto. rewrite (H c) by (left; auto). apply IH. intros x I. apply H. right. auto.
Qed.

Lemma read_size_word : forall c v old, is_space c = false -> is_digit c = false -> c <> "-"%char -> c <> "+"%char ->
  read_size (c :: v) old = 0%N.
Proof.
  intros c v old A B C D. unfold read_size. cbn [skip_spaces]. rewrite A. unfold ceqb.
  destruct (Ascii.eqb_spec c "-"); [congruence|]. destruct (Ascii.eqb_spec c "+"); [congruence|]. cbn [orb digits]. rewrite B. reflexivity.
Qed.

Lemma is_space_blank : forall c, is_space c = true <-> blank c.
Proof.
  intros c. unfold is_space, blank, uchar. rewrite orb_true_iff, andb_true_iff, N.eqb_eq, !N.leb_le. cbn [In]. lia.
Qed.
Lemma is_digit_spec : forall c, is_digit c = true <-> digit c (uchar c - 48).
Proof.
  intros c. split; [|intros D; repeat (destruct D as [D|D]; [injection D as <- _; reflexivity|]); destruct D].
  destruct c as [[] [] [] [] [] [] [] []]; vm_compute; intros H; try discriminate; tauto.
Qed.
Lemma digit_fun : forall c k, digit c k -> is_digit c = true /\ k = (uchar c - 48)%N.
Proof. intros c k D. repeat (destruct D as [D|D]; [injection D as <- <-; split; reflexivity|]). destruct D. Qed.
Lemma digits_app : forall ds n rest, numeral ds n -> digits 0 (ds ++ rest) = digits n rest.
Proof.
  intros ds n rest H. revert rest. induction H as [|s n c k H IH D]; intros rest; auto.
  destruct (digit_fun _ _ D) as (Dc & ->). rewrite <- app_assoc, IH. cbn [app digits]. rewrite Dc. reflexivity.
Qed.
Lemma digits_stop : forall n rest, (forall c k, hd_error rest = Some c -> ~ digit c k) -> digits n rest = n.
Proof.
  intros n [|c rest] H; auto. cbn [digits]. destruct (is_digit c) eqn:E; auto.
  apply is_digit_spec in E. destruct (H c _ eq_refl E).
Qed.
Lemma skip_blanks : forall b s, Forall blank b -> skip_spaces (b ++ s) = skip_spaces s.
Proof. intros b s H. induction H as [|c b B _ IH]; auto. cbn [app skip_spaces]. apply is_space_blank in B. rewrite B. auto. Qed.
Lemma numeral_head : forall ds n, numeral ds n -> ds = [] \/ exists c ds', ds = c :: ds' /\ is_digit c = true.
Proof.
  intros ds n H. induction H as [|s n c k H IH D]; auto. right. destruct IH as [->|(c' & ds' & -> & Dc)].
  - exists c, []. split; auto. apply (digit_fun _ _ D).
  - exists c', (ds' ++ [c]). auto.
Qed.

Lemma read_size_reads : forall v old n, reads v old n -> read_size v old = n.
Proof.
  intros v old n H. destruct H as [v old B|blanks sign ds rest old n B S N R Z].
  { apply read_size_blank. intros c I. apply is_space_blank. rewrite Forall_forall in B. auto. }
  unfold read_size. rewrite skip_blanks by auto.
  assert (D : digits 0 (ds ++ rest) = n) by (rewrite (digits_app _ _ _ N); apply digits_stop; auto).
  assert (M : forall x, (if (SIZE_MAX <? n)%N then SIZE_MAX else x) = if (n <? 2 ^ 64)%N then x else (2 ^ 64 - 1)%N).
  { intros x. change SIZE_MAX with (2 ^ 64 - 1)%N. destruct (N.ltb_spec (2 ^ 64 - 1) n), (N.ltb_spec n (2 ^ 64)); auto; lia. }
  destruct S as [<-|[<-|[<-|[]]]].
  - cbn [app]. destruct (numeral_head _ _ N) as [->|(c & ds' & -> & Dc)].
    + destruct (Z eq_refl eq_refl) as (c & Hc & Nb & Np & Nm). destruct rest as [|c' rest]; [discriminate|].
      injection Hc as ->. cbn [app skip_spaces]. destruct (is_space c) eqn:E; [apply is_space_blank in E; contradiction|].
      unfold ceqb. destruct (Ascii.eqb_spec c "-"); [congruence|]. destruct (Ascii.eqb_spec c "+"); [congruence|].
      cbn [orb]. cbn [app] in D. rewrite D. apply M.
    + destruct (is_digit_not c Dc) as (A & Bm & C). cbn [app skip_spaces]. rewrite A, Bm, C. cbn [orb].
      change ((c :: ds') ++ rest) with (c :: ds' ++ rest) in D. rewrite D. apply M.
  - change (skip_spaces (lit "+" ++ ds ++ rest)) with ("+"%char :: ds ++ rest). cbv beta iota zeta.
    change (ceqb "+" "-") with false. change (ceqb "+" "+") with true. cbn [orb]. rewrite D. apply M.
  - change (skip_spaces (lit "-" ++ ds ++ rest)) with ("-"%char :: ds ++ rest). cbv beta iota zeta.
    change (ceqb "-" "-") with true. cbn [orb]. rewrite D. apply M.
Qed.

Lemma numeral_split : forall s ds n, numeral ds n -> exists ds' rest m, ds ++ s = ds' ++ rest /\ numeral ds' m /\
  (ds <> [] -> ds' <> []) /\ (forall c k, hd_error rest = Some c -> ~ digit c k).
Proof.
  induction s as [|c s IH]; intros ds n N.
  { exists ds, [], n. split; auto. split; auto. split; auto. discriminate. }
  destruct (is_digit c) eqn:E.
  - apply is_digit_spec in E. destruct (IH _ _ (numeral_snoc _ _ _ _ N E)) as (ds' & rest & m & A & B & C & D).
    exists ds', rest, m. split; [rewrite <- A, <- app_assoc; auto|]. split; auto. split; auto.
    intros _. apply C. destruct ds; discriminate.
  - exists ds, (c :: s), n. split; auto. split; auto. split; auto.
    intros c' k H Dk. injection H as <-. apply digit_fun in Dk. destruct Dk. congruence.
Qed.
Lemma reads_total : forall v old, exists n, reads v old n.
Proof.
  intros v old.
  assert (P : exists b s, v = b ++ s /\ Forall blank b /\ (forall c, hd_error s = Some c -> ~ blank c)).
  { induction v as [|c v IH]; [exists [], []; split; auto; split; auto; discriminate|].
    destruct (is_space c) eqn:E.
    - apply is_space_blank in E. destruct IH as (b & s & -> & B & S). exists (c :: b), s. split; auto.
    - exists [], (c :: v). split; auto. split; auto. intros c' H X. injection H as <-. apply is_space_blank in X. congruence. }
  destruct P as (b & s & -> & B & S). destruct s as [|c s].
  { exists old. rewrite app_nil_r. constructor. auto. }
  destruct (Ascii.eqb_spec c "+"); [subst c|destruct (Ascii.eqb_spec c "-"); [subst c|]].
  - destruct (numeral_split s _ _ numeral_nil) as (ds & rest & m & E & N & _ & R). cbn [app] in E. subst s. eexists.
    change ("+"%char :: ds ++ rest) with (lit "+" ++ ds ++ rest). apply (reads_number _ _ _ _ _ _ B (or_intror (or_introl eq_refl)) N R); discriminate.
  - destruct (numeral_split s _ _ numeral_nil) as (ds & rest & m & E & N & _ & R). cbn [app] in E. subst s. eexists.
    change ("-"%char :: ds ++ rest) with (lit "-" ++ ds ++ rest). apply (reads_number _ _ _ _ _ _ B (or_intror (or_intror (or_introl eq_refl))) N R); discriminate.
  - destruct (numeral_split (c :: s) _ _ numeral_nil) as (ds & rest & n' & E & N & _ & R). cbn [app] in E. rewrite E. eexists.
    change (ds ++ rest) with ([] ++ ds ++ rest). apply (reads_number _ _ _ _ _ _ B (or_introl eq_refl) N R).
    intros _ ->. exists c. cbn [app] in E. rewrite <- E. split; auto.
Qed.

(** ** Options *)
Definition apply_option (o : options) (g : option_given) : options :=
  match g with
  | GivenDictionary p => Options p (o_serialization o) (o_algorithm o) (o_max_distance o)
  | GivenSerialization p => Options (o_dictionary o) p (o_algorithm o) (o_max_distance o)
  | GivenAlgorithm a => Options (o_dictionary o) (o_serialization o) a (o_max_distance o)
  | GivenDistance n => Options (o_dictionary o) (o_serialization o) (o_algorithm o) n
  end.

Lemma parse_said : forall fs gs o rest, (forall p, In (GivenDictionary p) gs -> fs p <> None) ->
  (forall n, In (GivenDistance n) gs -> (n <= SIZE_MAX)%N) ->
  parse_args fs o (flat_map said gs ++ rest) = parse_args fs (fold_left apply_option gs o) rest.
Proof.
  intros fs. induction gs as [|g gs IH]; intros o rest Hd Hn; auto.
  cbn [flat_map fold_left]. rewrite <- app_assoc. rewrite <- IH; [|intros; apply Hd; right; auto|intros; apply Hn; right; auto].
  destruct g as [p|p|a|n]; cbn [said app apply_option].
  - assert (E : exists_file fs p = true) by (unfold exists_file; specialize (Hd p (or_introl eq_refl)); destruct (fs p); congruence).
    cbn [parse_args]. rewrite E. reflexivity.
  - reflexivity.
  - destruct a; reflexivity.
  - cbn [parse_args]. rewrite read_size_decimal. rewrite N.min_l by (apply Hn; left; auto). reflexivity.
Qed.

Lemma last_or_cons : forall A (find : option_given -> option A) g gs d,
  last_or find d (g :: gs) = last_or find (match find g with Some a => a | None => d end) gs.
Proof.
  intros. unfold last_or. cbn [flat_map]. destruct (find g) as [a|]; cbn [app]; auto.
  destruct (flat_map _ gs) as [|x l]; auto. cbn [last]. revert x. induction l as [|y l IH]; intros x; auto. apply (IH y).
Qed.

Lemma apply_options : forall gs o, fold_left apply_option gs o =
  Options (last_or (fun g => match g with GivenDictionary p => Some p | _ => None end) (o_dictionary o) gs)
          (last_or (fun g => match g with GivenSerialization p => Some p | _ => None end) (o_serialization o) gs)
          (last_or (fun g => match g with GivenAlgorithm a => Some a | _ => None end) (o_algorithm o) gs)
          (last_or (fun g => match g with GivenDistance n => Some n | _ => None end) (o_max_distance o) gs).
Proof.
  induction gs as [|g gs IH]; intros o; cbn [fold_left].
  - destruct o. reflexivity.
  - rewrite IH, !last_or_cons. destruct g; reflexivity.
Qed.

Lemma parse_well_formed : forall fs n args o o', length args <= n -> parse_args fs o args = inl o' -> well_formed_args args.
Proof.
  intros fs. induction n as [|n IH]; intros [|arg args] o o' Ln E; cbn [length] in Ln; try lia; try constructor.
  cbn [parse_args] in E.
  destruct (str_eqb arg _ || str_eqb arg _); [discriminate|].
  destruct (str_eqb arg (lit "--dictionary-path")) eqn:X1.
  { apply str_eqb_eq in X1. destruct args as [|v args]; [discriminate|]. destruct (exists_file fs v); [|discriminate].
    subst. apply args_value; [cbn; auto|]. cbn [length] in Ln. eapply IH; [|exact E]; lia. }
  destruct (str_eqb arg (lit "--serialization-path")) eqn:X2.
  { apply str_eqb_eq in X2. destruct args as [|v args]; [discriminate|].
    subst. apply args_value; [cbn; auto|]. cbn [length] in Ln. eapply IH; [|exact E]; lia. }
  destruct (str_eqb arg (lit "--standard")) eqn:X3.
  { apply str_eqb_eq in X3. subst. apply (args_algorithm STANDARD). eapply IH; [|exact E]; lia. }
  destruct (str_eqb arg (lit "--transposition")) eqn:X4.
  { apply str_eqb_eq in X4. subst. apply (args_algorithm TRANSPOSITION). eapply IH; [|exact E]; lia. }
  destruct (str_eqb arg (lit "--merge-and-split")) eqn:X5.
  { apply str_eqb_eq in X5. subst. apply (args_algorithm MERGE_AND_SPLIT). eapply IH; [|exact E]; lia. }
  destruct (str_eqb arg (lit "--max-distance")) eqn:X6; [|discriminate].
  apply str_eqb_eq in X6. destruct args as [|v args]; [discriminate|].
  subst. apply args_value; [cbn; auto|]. cbn [length] in Ln. eapply IH; [|exact E]; lia.
Qed.
