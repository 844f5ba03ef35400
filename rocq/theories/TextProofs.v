(** * TextProofs: lemmas about texts. *)
From Coq Require Import Sorting.Sorted Sorting.Permutation.
From Coq Require DecimalString DecimalN DecimalFacts.
From Verif Require Import Base Spec ModelTransducer ModelDawg ModelSerial ModelWire ModelQuery ModelDemo
  SpecDawg SpecSerial SpecQuery SpecWire SpecDemo ModelText SpecText
  TreeProofs HeapProofs IterProofs BuildProofs2 DawgProofs QueryProofs QueryFacts WireProofs FileProofs SizeProofs SerialProofs DemoProofs.
Local Open Scope nat_scope.

(** ** Numbers *)
Lemma show_digits_acc : forall fuel n acc, show_digits fuel n acc = show_digits fuel n [] ++ acc.
Proof.
  induction fuel as [|fuel IH]; intros n acc; cbn [show_digits]; auto. cbv zeta. destruct (n <? 10)%N; auto.
  rewrite (IH _ (_ :: acc)), (IH _ [_]), <- app_assoc. reflexivity.
Qed.

Lemma digit_ascii k : (k < 10)%N -> digit (ascii_of_N (48 + k)) k.
Proof.
  intros L. assert (E : In k [0; 1; 2; 3; 4; 5; 6; 7; 8; 9]%N) by (cbn; lia).
  cbn [In] in E. repeat (destruct E as [<-|E]; [cbn; tauto|]). destruct E.
Qed.

Definition no_zero (s : str) (n : N) : Prop := s <> [] /\ (n <> 0%N -> hd_error s <> Some "0"%char) /\ (n = 0%N -> s = lit "0").

Lemma show_digits_ok : forall fuel n, (n < 10 ^ N.of_nat fuel)%N -> 0 < fuel ->
  numeral (show_digits fuel n []) n /\ no_zero (show_digits fuel n []) n.
Proof.
  induction fuel as [|fuel IH]; intros n L F; [lia|]. cbn [show_digits]. cbv zeta. destruct (N.ltb_spec n 10) as [S|S].
  - rewrite N.mod_small by lia. pose proof (digit_ascii n S) as D. split.
    + replace n with (10 * 0 + n)%N at 2 by lia. change [?c] with ([] ++ [c]). apply numeral_snoc; [constructor|auto].
    + split; [discriminate|]. split; [|intros ->; reflexivity]. intros Nz E. injection E as E.
      assert (E' : In n [1; 2; 3; 4; 5; 6; 7; 8; 9]%N) by (cbn; lia). cbn [In] in E'.
      repeat (destruct E' as [<-|E']; [discriminate|]). destruct E'.
  - destruct fuel as [|fuel]; [cbn in L; lia|]. rewrite show_digits_acc.
    assert (L' : (n / 10 < 10 ^ N.of_nat (Datatypes.S fuel))%N).
    { apply N.div_lt_upper_bound; [lia|]. rewrite Nat2N.inj_succ, N.pow_succ_r' in L. exact L. }
    destruct (IH (n / 10)%N L' ltac:(lia)) as [Nu [Ne [Nz _]]]. split.
    + rewrite (N.div_mod n 10) at 3 by lia. apply numeral_snoc; auto. apply digit_ascii, N.mod_lt. lia.
    + assert (n / 10 <> 0)%N as Q by (intros E; apply N.div_small_iff in E; lia). specialize (Nz Q).
      destruct (show_digits (Datatypes.S fuel) (n / 10) []) as [|c s]; [congruence|]. cbn [app]. split; [discriminate|]. split; [auto|lia].
Qed.

Lemma numeral_digits ds n : numeral ds n -> Forall (fun c => is_digit c = true) ds.
Proof. induction 1 as [|s n c k H IH D]; [constructor|]. apply Forall_app. split; auto. constructor; [apply (digit_fun _ _ D)|constructor]. Qed.

Lemma digits_str s : Forall (fun c => is_digit c = true) s -> exists d, uint_str d = s.
Proof.
  induction 1 as [|c s D F (d & <-)]; [exists Decimal.Nil; reflexivity|].
  apply is_digit_spec in D. unfold digit in D. remember (uchar c - 48)%N as k. clear Heqk.
  repeat (destruct D as [D|D]; [injection D as <- _;
    first [exists (Decimal.D0 d); reflexivity|exists (Decimal.D1 d); reflexivity|exists (Decimal.D2 d); reflexivity
          |exists (Decimal.D3 d); reflexivity|exists (Decimal.D4 d); reflexivity|exists (Decimal.D5 d); reflexivity
          |exists (Decimal.D6 d); reflexivity|exists (Decimal.D7 d); reflexivity|exists (Decimal.D8 d); reflexivity
          |exists (Decimal.D9 d); reflexivity]|]). destruct D.
Qed.

Lemma show_size_ok n : (n <= SIZE_MAX)%N -> numeral (show_size n) n /\ no_zero (show_size n) n.
Proof.
  intros L. unfold show_size. apply show_digits_ok; [|lia].
  replace (10 ^ N.of_nat 20)%N with 100000000000000000000%N by (vm_compute; reflexivity).
  replace SIZE_MAX with 18446744073709551615%N in L by (vm_compute; reflexivity). lia.
Qed.

Lemma show_size_decimal n : (n <= SIZE_MAX)%N -> show_size n = decimal n.
Proof.
  intros L. destruct (show_size_ok n L) as [Nu [Ne [Nz Z]]].
  destruct (N.eq_dec n 0) as [->|D]; [reflexivity|]. specialize (Nz D). clear Z.
  destruct (digits_str _ (numeral_digits _ _ Nu)) as (d & E). rewrite <- E in *.
  pose proof (digits_app _ _ [] Nu) as A. rewrite digits_uint in A by exact I. cbn [digits] in A.
  unfold decimal. rewrite <- A, DecimalN.Unsigned.to_of. destruct d; try reflexivity; exfalso; auto; apply Nz; reflexivity.
Qed.

Lemma decimal_ok n : (n <= SIZE_MAX)%N -> numeral (decimal n) n /\ decimal n <> [] /\ Forall (fun c => is_digit c = true) (decimal n).
Proof.
  intros L. rewrite <- show_size_decimal by auto. destruct (show_size_ok n L) as [Nu [Ne _]].
  split; auto. split; auto. eapply numeral_digits; eauto.
Qed.

(** ** The pieces *)
Lemma show_path_quoted p : quoted p (show_path p).
Proof.
  exists (flat_map (fun c => if ceqb c quote || ceqb c backslash then [backslash; c] else [c]) p). split; auto.
  induction p as [|c p IH]; cbn [flat_map]; [constructor|]. unfold ceqb.
  destruct (Ascii.eqb_spec c quote) as [->|A]; cbn [orb app]; [apply quotes_special; auto|].
  destruct (Ascii.eqb_spec c backslash) as [->|B]; cbn [app]; [apply quotes_special; auto|]. apply quotes_plain; auto.
Qed.

Lemma lit_app_cons c (s : str) : lit (String.String c String.EmptyString) ++ s = c :: s. Proof. reflexivity. Qed.

Lemma show_config_ok o : (o_max_distance o <= SIZE_MAX)%N -> configuration o (show_config o).
Proof.
  intros L. exists (show_path (o_dictionary o)), (show_path (o_serialization o)). split; [apply show_path_quoted|]. split; [apply show_path_quoted|].
  unfold show_config. rewrite show_size_decimal by auto. unfold unlines, endl, name_of. cbn [flat_map].
  rewrite <- !app_assoc. rewrite app_nil_r. destruct (o_algorithm o); reflexivity.
Qed.

Lemma show_answer_ok q t k : (k <= SIZE_MAX)%N -> show_answer (q, t, k) = answer_line (q, t, k) ++ [newline].
Proof. intros L. unfold show_answer, answer_line, endl. rewrite show_size_decimal by auto. rewrite <- !app_assoc. reflexivity. Qed.

Lemma show_answers_ok part : (forall q t k, In (q, t, k) part -> (k <= SIZE_MAX)%N) -> flat_map show_answer part = unlines (map answer_line part).
Proof.
  induction part as [|[[q t] k] part IH]; intros L; cbn [flat_map map unlines]; auto.
  rewrite (show_answer_ok q t k) by (eapply L; left; reflexivity). f_equal. apply IH. intros; eapply L; right; eauto.
Qed.

Lemma show_prompt_ok : show_prompt = question. Proof. reflexivity. Qed.

(** ** The loop *)
Lemma answered_small alg n terms q q' t k : (n <= SIZE_MAX)%N -> In (q', t, k) (answered alg n terms q) -> (k <= SIZE_MAX)%N.
Proof.
  intros L I. destruct (answered_right alg n terms terms q (fun t => iff_refl _)) as [_ H]. apply H in I. destruct I as (_ & _ & _ & I). lia.
Qed.

Lemma prompt_text_ok : forall h d o terms, unf h (d_root d) (trie terms) ->
  forall qs, (forall q, In q qs -> within_limits terms q (o_max_distance o)) -> (forall q, In q qs -> q <> [] /\ one_line q) ->
  forall tail, tail = [] \/ (exists more, tail = newline :: more) ->
  exists B, forall rounds fuel old, S (length qs) <= rounds -> B <= fuel ->
    prompt_text rounds fuel h d o (IStream (unlines qs ++ tail) false false) old =
      Ok (flat_map (fun part => question ++ unlines (map answer_line part)) (map (answered (o_algorithm o) (o_max_distance o) terms) qs) ++ question).
Proof.
  intros h d o terms U. induction qs as [|q qs IH]; intros L N tail T.
  - exists 0. intros [|rounds] fuel old R _; cbn [length] in R; [lia|]. cbn [unlines flat_map map app prompt_text].
    destruct T as [->|(more & ->)].
    + reflexivity.
    + change (newline :: more) with ([] ++ newline :: more). rewrite getline_line by (intros []). reflexivity.
  - destruct (N q (or_introl eq_refl)) as (Nq & Oq).
    destruct (IH (fun p I => L p (or_intror I)) (fun p I => N p (or_intror I)) tail T) as (B & E).
    destruct (answer_query_ok h d o terms q U (L q (or_introl eq_refl))) as (B' & E').
    exists (Nat.max B B'). intros [|rounds] fuel old R F; [lia|]. cbn [prompt_text]. rewrite unlines_cons, getline_line by auto.
    destruct q as [|c q]; [congruence|]. rewrite (E' fuel ltac:(lia)). cbn [rbind]. cbn [length] in R.
    rewrite (E rounds fuel (c :: q)) by lia. cbn [rbind map flat_map]. f_equal. rewrite <- !app_assoc. rewrite show_prompt_ok. f_equal.
    rewrite show_answers_ok; auto. intros q' t k. apply answered_small. apply (L _ (or_introl eq_refl)).
Qed.

(** ** The command line *)
Lemma args_text_parse fs : forall n args o, length args <= n ->
  match parse_args fs o args with
  | inr _ => args_text fs o args <> []
  | inl o' => args_text fs o args = args_text fs o' []
  end.
Proof.
  induction n as [|n IH]; intros [|arg args] o Ln; cbn [length] in Ln; try lia; try (cbn [parse_args]; reflexivity).
  cbn [parse_args]. cbn [args_text].
  repeat match goal with
  | |- context [if ?b then _ else _] => match b with
      | str_eqb _ _ => destruct b
      | (_ || _)%bool => destruct b
      end
  end; try (vm_compute; discriminate).
  - destruct args as [|p args]; [vm_compute; discriminate|]. cbn [length] in Ln. destruct (exists_file fs p); [apply IH; lia|]. intros E. destruct (app_eq_nil _ _ E) as [X _]. discriminate.
  - destruct args as [|p args]; [vm_compute; discriminate|]. cbn [length] in Ln. apply IH; lia.
  - apply IH; lia.
  - apply IH; lia.
  - apply IH; lia.
  - destruct args as [|p args]; [vm_compute; discriminate|]. cbn [length] in Ln. apply IH; lia.
Qed.

Lemma args_text_ok fs args o : parse_opts fs args = inl o -> args_text fs default_options args = [].
Proof.
  unfold parse_opts. pose proof (args_text_parse fs (length args) args default_options (le_n _)) as H.
  destruct (parse_args fs default_options args) as [o'|c]; [|discriminate]. rewrite H. cbn [args_text].
  destruct (negb _ && negb _); [discriminate|reflexivity].
Qed.

Lemma args_text_fails fs args c : parse_opts fs args = inr c -> args_text fs default_options args <> [].
Proof.
  unfold parse_opts. pose proof (args_text_parse fs (length args) args default_options (le_n _)) as H.
  destruct (parse_args fs default_options args) as [o'|c']; [|auto]. rewrite H. cbn [args_text].
  destruct (negb _ && negb _); [|discriminate]. intros _ E. destruct (app_eq_nil _ _ E) as [X _]. discriminate.
Qed.

(** ** Reading the text back *)
Lemma one_line_app a b : one_line (a ++ b) <-> one_line a /\ one_line b.
Proof. unfold one_line. rewrite in_app_iff. tauto. Qed.

Lemma digit_no_newline s : Forall (fun c => is_digit c = true) s -> one_line s.
Proof. intros F I. rewrite Forall_forall in F. apply F in I. discriminate. Qed.

Lemma app_last_split (a b : str) (x y : str) c : Forall (fun d => is_digit d = true) x -> Forall (fun d => is_digit d = true) y ->
  is_digit c = false -> a ++ c :: x = b ++ c :: y -> a = b /\ x = y.
Proof.
  intros Fx Fy Dc E.
  assert (H : forall (a b x y : str), Forall (fun d => is_digit d = true) x -> Forall (fun d => is_digit d = true) y ->
    a ++ c :: x = b ++ c :: y -> length a <= length b -> a = b /\ x = y).
  { induction a0 as [|d a0 IH]; intros [|e b0] x0 y0 F1 F2 E0 L; cbn [app length] in *.
    - injection E0 as ->. auto.
    - injection E0 as <- E0. exfalso. rewrite E0 in F1. apply Forall_app in F1. destruct F1 as [_ F1]. inversion F1; subst. congruence.
    - lia.
    - injection E0 as <- E0. destruct (IH b0 x0 y0 F1 F2 E0 ltac:(lia)) as [-> ->]. auto. }
  destruct (Nat.le_ge_cases (length a) (length b)) as [L|L]; [auto|].
  symmetry in E. destruct (H _ _ _ _ Fy Fx E L). auto.
Qed.

Lemma answer_line_inj q t k t' k' : (k <= SIZE_MAX)%N -> (k' <= SIZE_MAX)%N ->
  answer_line (q, t, k) = answer_line (q, t', k') -> t = t' /\ k = k'.
Proof.
  intros L L' E. unfold answer_line in E. apply app_inv_head in E. apply app_inv_head in E. apply app_inv_head in E.
  change (lit """) = ") with (lit """) =" ++ [" "%char]) in E. rewrite <- !app_assoc in E. cbn [app] in E.
  destruct (decimal_ok k L) as (N1 & _ & F1), (decimal_ok k' L') as (N2 & _ & F2).
  rewrite !app_assoc in E. apply app_last_split in E; auto. destruct E as [E1 E2]. apply app_inv_tail in E1. split; auto.
  pose proof (digits_app _ _ [] N1) as A. pose proof (digits_app _ _ [] N2) as B. rewrite app_nil_r in A, B. cbn [digits] in A, B. congruence.
Qed.

Lemma line_split a b x y : one_line a -> one_line b -> a ++ newline :: x = b ++ newline :: y -> a = b /\ x = y.
Proof.
  intros A B E. pose proof (to_newline_line a x A) as P. rewrite E, (to_newline_line b y B) in P. injection P as -> ->. auto.
Qed.

(** Lists of non-empty lines, followed by an empty one. *)
Lemma unlines_inj : forall ls ls' x y, (forall l, In l ls -> one_line l /\ l <> []) -> (forall l, In l ls' -> one_line l /\ l <> []) ->
  unlines ls ++ newline :: x = unlines ls' ++ newline :: y -> ls = ls' /\ x = y.
Proof.
  induction ls as [|l ls IH]; intros [|l' ls'] x y H H' E.
  - injection E as ->. auto.
  - rewrite unlines_cons in E. cbn [unlines flat_map app] in E. destruct (H' l' (or_introl eq_refl)) as [_ N].
    destruct l' as [|c l']; [congruence|]. cbn [app] in E. injection E as E _. exfalso. apply (proj1 (H' _ (or_introl eq_refl))). left. auto.
  - rewrite unlines_cons in E. cbn [unlines flat_map app] in E. destruct (H l (or_introl eq_refl)) as [_ N].
    destruct l as [|c l]; [congruence|]. cbn [app] in E. injection E as E _. exfalso. apply (proj1 (H _ (or_introl eq_refl))). left. auto.
  - rewrite !unlines_cons in E. apply line_split in E; [|apply (H _ (or_introl eq_refl))|apply (H' _ (or_introl eq_refl))].
    destruct E as [-> E]. destruct (IH ls' x y) as [-> ->]; auto; intros z I; [apply H|apply H']; right; auto.
Qed.

Definition plain_part (q : str) (part : list answer) : Prop :=
  forall q' t k, In (q', t, k) part -> q' = q /\ one_line t /\ (k <= SIZE_MAX)%N.

Lemma plain_lines q part : one_line q -> plain_part q part -> forall l, In l (map answer_line part) -> one_line l /\ l <> [].
Proof.
  intros Oq P l I. apply in_map_iff in I. destruct I as ([[q' t] k] & <- & I). destruct (P _ _ _ I) as (-> & Ot & L).
  split; [|discriminate]. unfold answer_line. destruct (decimal_ok k L) as (_ & _ & F). apply digit_no_newline in F.
  rewrite !one_line_app. repeat split; auto; intros X; vm_compute in X; repeat destruct X as [X|X]; try discriminate; contradiction.
Qed.

Lemma plain_inj q : forall p1 p2, plain_part q p1 -> plain_part q p2 -> map answer_line p1 = map answer_line p2 -> p1 = p2.
Proof.
  induction p1 as [|[[q1 t1] k1] p1 IH]; intros [|[[q2 t2] k2] p2] P1 P2 E; try discriminate; auto.
  destruct (P1 _ _ _ (or_introl eq_refl)) as (-> & _ & L1), (P2 _ _ _ (or_introl eq_refl)) as (-> & _ & L2).
  cbn [map] in E. pose proof (f_equal (@tl str) E) as E2. apply (f_equal (fun l => hd [] l)) in E. rename E into E1.
  cbn [hd tl] in E1, E2. apply answer_line_inj in E1; auto. destruct E1 as [-> ->]. f_equal.
  apply IH; auto; intros x y z I; [apply P1|apply P2]; right; auto.
Qed.

Lemma conversation_inj : forall qs p1 p2, (forall q, In q qs -> one_line q) -> Forall2 plain_part qs p1 -> Forall2 plain_part qs p2 ->
  conversation p1 = conversation p2 -> p1 = p2.
Proof.
  intros qs p1 p2 O F1. revert p2. induction F1 as [|q a qs p1 Pa F1 IH]; intros p2 F2 E.
  - inversion F2. auto.
  - inversion F2 as [|? b ? p2' Pb F2']; subst. unfold conversation in E. cbn [flat_map] in E. rewrite <- !app_assoc in E.
    apply app_inv_head in E.
    assert (X : forall ps, exists z, flat_map (fun part => question ++ unlines (map answer_line part)) ps ++ question ++ unlines [[]; lit "Exiting ..."] = newline :: z).
    { intros [|p ps]; [eexists; reflexivity|]. cbn [flat_map]. rewrite <- !app_assoc. eexists. reflexivity. }
    destruct (X p1) as (z1 & Z1), (X p2') as (z2 & Z2). rewrite Z1, Z2 in E.
    apply unlines_inj in E; [|eapply plain_lines; eauto; apply O; left; auto|eapply plain_lines; eauto; apply O; left; auto].
    destruct E as [El Ez]. apply plain_inj with (q := q) in El; auto. subst b. f_equal. apply IH; auto.
    + intros q' I. apply O. right. auto.
    + unfold conversation. rewrite Z1, Z2, Ez. auto.
Qed.

(** ** Texts of nodes *)
Lemma show_edges_inj : forall es fs i x y, show_edges i es ++ lit "}}" ++ x = show_edges i fs ++ lit "}}" ++ y ->
  map fst es = map fst fs /\ x = y.
Proof.
  induction es as [|[c p] es IH]; intros [|[d q] fs] i x y E.
  - injection E as ->. auto.
  - exfalso. destruct i; discriminate.
  - exfalso. destruct i; discriminate.
  - cbn [show_edges] in E. rewrite <- !app_assoc in E. apply app_inv_head in E. unfold show_edge in E. cbn [fst] in E. rewrite <- !app_assoc in E.
    apply app_inv_head in E. cbn [app] in E. injection E as Ec E. apply (IH fs (S i) x y) in E. destruct E as [E ->].
    cbn [map fst]. now rewrite E, Ec.
Qed.

(** ** Quoted texts are self-delimiting *)
Lemma quoted_split : forall p s, in_quotes p s -> forall p' s' x y, in_quotes p' s' ->
  s ++ """"%char :: x = s' ++ """"%char :: y -> p = p' /\ x = y.
Proof.
  induction 1 as [|c p s A B H IH|c p s A H IH]; intros p' s' x y H' E; inversion H' as [|c' p0 s0 A' B' H0|c' p0 s0 A' H0]; subst; cbn [app] in E.
  - injection E as ->. auto.
  - injection E as E _. congruence.
  - injection E as E _. destruct A'; congruence.
  - injection E as E _. congruence.
  - injection E as -> E. destruct (IH _ _ _ _ H0 E) as [-> ->]. auto.
  - injection E as E _. congruence.
  - injection E as E _. congruence.
  - injection E as E _. congruence.
  - injection E as -> E. destruct (IH _ _ _ _ H0 E) as [-> ->]. auto.
Qed.

Lemma decimal_split k k' x y : (k <= SIZE_MAX)%N -> (k' <= SIZE_MAX)%N ->
  decimal k ++ newline :: x = decimal k' ++ newline :: y -> k = k' /\ x = y.
Proof.
  intros L L' E. destruct (decimal_ok k L) as (N1 & _ & F1), (decimal_ok k' L') as (N2 & _ & F2).
  apply line_split in E; [|apply digit_no_newline; auto|apply digit_no_newline; auto]. destruct E as [E ->]. split; auto.
  pose proof (digits_app _ _ [] N1) as A. pose proof (digits_app _ _ [] N2) as B. rewrite app_nil_r in A, B. cbn [digits] in A, B. congruence.
Qed.

Lemma name_split a b x y : name_of a ++ newline :: x = name_of b ++ newline :: y -> a = b /\ x = y.
Proof.
  intros E. apply line_split in E; [|destruct a; intros I; vm_compute in I; repeat destruct I as [I|I]; try discriminate; auto
    |destruct b; intros I; vm_compute in I; repeat destruct I as [I|I]; try discriminate; auto].
  destruct E as [E ->]. split; auto. destruct a, b; try discriminate; auto.
Qed.

Lemma configuration_split o o' c c' x y : (o_max_distance o <= SIZE_MAX)%N -> (o_max_distance o' <= SIZE_MAX)%N ->
  configuration o c -> configuration o' c' -> c ++ x = c' ++ y -> o = o' /\ c = c' /\ x = y.
Proof.
  intros L L' (d & s & (d0 & Qd & ->) & (s0 & Qs & ->) & Ec) (d' & s' & (d1 & Qd' & ->) & (s1 & Qs' & ->) & Ec') E.
  assert (Form : forall (A B C D F d s a n x : str), unlines [A; B ++ d; C ++ s; D ++ a; F ++ n] ++ x =
    (A ++ [newline] ++ B) ++ d ++ newline :: C ++ s ++ newline :: D ++ a ++ newline :: F ++ n ++ newline :: x).
  { clear. intros. unfold unlines. cbn [flat_map]. repeat (rewrite <- !app_assoc; cbn [app]). reflexivity. }
  assert (Quote : forall p r : str, (lit """" ++ p ++ lit """") ++ r = """"%char :: p ++ """"%char :: r).
  { clear. intros. rewrite <- !app_assoc. reflexivity. }
  assert (X : o = o' /\ x = y).
  { subst c c'. rewrite !Form in E. clear Form. apply app_inv_head in E. rewrite !Quote in E. apply (f_equal (@tl char)) in E. cbn [tl] in E.
    apply (quoted_split _ _ Qd _ _ _ _ Qd') in E. destruct E as [Ed E].
    apply (f_equal (@tl char)) in E. cbn [tl] in E. apply app_inv_head in E. apply (f_equal (@tl char)) in E. cbn [tl] in E.
    apply (quoted_split _ _ Qs _ _ _ _ Qs') in E. destruct E as [Es E].
    apply (f_equal (@tl char)) in E. cbn [tl] in E. apply app_inv_head in E. apply name_split in E. destruct E as [Ea E].
    apply app_inv_head in E. apply decimal_split in E; auto. destruct E as [En E].
    split; auto. destruct o, o'. cbn in *. congruence. }
  destruct X as [-> ->]. apply app_inv_tail in E. auto.
Qed.

(** ** Options *)
Lemma text_said : forall fs gs o rest, (forall p, In (GivenDictionary p) gs -> fs p <> None) ->
  (forall n, In (GivenDistance n) gs -> (n <= SIZE_MAX)%N) ->
  args_text fs o (flat_map said gs ++ rest) = args_text fs (fold_left apply_option gs o) rest.
Proof.
  intros fs. induction gs as [|g gs IH]; intros o rest Hd Hn; auto.
  cbn [flat_map fold_left]. rewrite <- app_assoc. rewrite <- IH; [|intros; apply Hd; right; auto|intros; apply Hn; right; auto].
  destruct g as [p|p|a|n]; cbn [said app apply_option].
  - assert (E : exists_file fs p = true) by (unfold exists_file; specialize (Hd p (or_introl eq_refl)); destruct (fs p); congruence).
    cbn [args_text]. rewrite E. reflexivity.
  - reflexivity.
  - destruct a; reflexivity.
  - cbn [args_text]. rewrite read_size_decimal. rewrite N.min_l by (apply Hn; left; auto). reflexivity.
Qed.

(** ** The run *)
Lemma shows_load : forall s fuel o, parse_opts (s_files s) (s_args s) = inl o ->
  shows s fuel =
    (do (h1, dictionary) <- load fuel s o;
     match dictionary with
     | None => UB
     | Some b =>
         do out <- prompt_text fuel fuel h1 (b_dawg b) o (IStream (s_stdin s) false false) [];
         do _ <- serialize_file fuel (s_size s) (s_split s) (s_opens s) (s_room s) (s_files s (o_serialization o)) h1 (b_dawg b);
         do _ <- destroy fuel h1 b;
         Ok (show_config o ++ out ++ endl ++ lit "Exiting ..." ++ endl, [])
     end).
Proof.
  intros s fuel o P. unfold shows, demo_text, load. rewrite P, (args_text_ok _ _ _ P).
  destruct (deserialize_file (s_alloc s) [] (s_files s (o_serialization o))) as [[h r]| |]; cbn [rbind]; auto.
Qed.

Lemma shows_ok : forall s o h b terms qs, parse_opts (s_files s) (s_args s) = inl o -> sensible s ->
  runs_to (fun fuel => load fuel s o) (h, Some b) ->
  unf h (d_root (b_dawg b)) (trie terms) ->
  (exists h', runs_to (fun fuel => destroy fuel h b) h' /\ same_heap h' []) ->
  types (s_stdin s) qs -> (forall q, In q qs -> within_limits terms q (o_max_distance o)) ->
  runs_to (shows s) (show_config o ++ conversation (map (answered (o_algorithm o) (o_max_distance o) terms) qs), []).
Proof.
  intros s o h b terms qs P (Al & Sp) (B1 & E1) U (h2 & (B2 & E2) & Sh) (N & T) L.
  assert (exists tail, s_stdin s = unlines qs ++ tail /\ (tail = [] \/ exists more, tail = newline :: more)) as (tail & St & Tl).
  { destruct T as [->|(more & ->)]; [exists []; rewrite app_nil_r; auto|eauto]. }
  destruct (prompt_text_ok h (b_dawg b) o terms U qs L N tail Tl) as (B3 & E3).
  destruct (serialize_file_ok (s_size s) (s_split s) (s_opens s) (s_room s) (s_files s (o_serialization o)) h (b_dawg b) _ U)
    as (ok & file & m & (B4 & E4) & Rm & Hf).
  exists (B1 + B2 + B3 + B4 + S (length qs)). intros fuel F. rewrite (shows_load _ _ _ P), E1 by lia. cbn [rbind].
  rewrite St, E3 by lia. cbn [rbind]. rewrite E4 by lia. cbn [rbind]. rewrite E2 by lia. cbn [rbind].
  unfold conversation. rewrite <- !app_assoc. reflexivity.
Qed.

Lemma saved_one_line path terms fs : saved path terms fs -> forall t, In t terms -> one_line t.
Proof.
  induction 1 as [s o qs r Se P Ep Pn Fl T Sz R Cs| |]; auto. unfold file_lines in Fl.
  destruct (s_files s (o_dictionary o)); [apply Fl|subst; intros t []].
Qed.

Lemma uses_one_line s o terms : uses s o terms -> forall t, In t terms -> one_line t.
Proof.
  intros (_ & _ & [(_ & Fl)|Sa]); [|eapply saved_one_line; eauto]. unfold file_lines in Fl.
  destruct (s_files s (o_dictionary o)); [apply Fl|subst; intros t []].
Qed.

Lemma uses_load s o terms : uses s o terms -> exists h b ts,
  runs_to (fun fuel => load fuel s o) (h, Some b) /\ unf h (d_root (b_dawg b)) (trie ts) /\ (forall t, In t ts <-> In t terms) /\
  exists h', runs_to (fun fuel => destroy fuel h b) h' /\ same_heap h' [].
Proof.
  intros (Se & P & [(Pn & Fl)|Sa]).
  - destruct (load_fresh s o terms Se Pn Fl) as (h & b & Lo & D & De). destruct (dictionary_unf _ _ _ D) as (U & _ & _).
    exists h, b, (sort_terms terms). auto using sort_terms_In.
  - apply saved_kept in Sa. destruct Sa as (ts & h0 & d0 & m0 & D0 & Eq & Ln & Af & R0 & Lm & F0).
    destruct (load_saved s o ts h0 d0 m0 Se D0 Af R0 Lm F0) as (h & b & Lo & D & De). destruct (dictionary_unf _ _ _ D) as (U & _ & _).
    exists h, b, ts. auto.
Qed.

Lemma uses_shows s o terms qs : uses s o terms -> types (s_stdin s) qs -> sizes_fit terms qs ->
  exists parts, Forall2 (right_answers (o_algorithm o) (o_max_distance o) terms) qs parts /\
    runs_to (shows s) (show_config o ++ conversation parts, []).
Proof.
  intros Us T Sz. destruct (uses_load _ _ _ Us) as (h & b & ts & Lo & U & Eq & De). destruct Us as (Se & P & _).
  assert (L : forall q, In q qs -> within_limits ts q (o_max_distance o)).
  { intros q I. destruct (within _ _ _ _ _ _ P Sz I) as (A1 & A2 & A3). split; auto. split; auto. intros t It. apply A3, Eq, It. }
  exists (map (answered (o_algorithm o) (o_max_distance o) ts) qs). split.
  - clear - Eq. induction qs; constructor; auto. apply answered_right; auto.
  - eapply shows_ok; eauto.
Qed.

Lemma right_plain alg n terms q part : (n <= SIZE_MAX)%N -> (forall t, In t terms -> one_line t) ->
  right_answers alg n terms q part -> plain_part q part.
Proof. intros L O (_ & H) q' t k I. apply H in I. destruct I as (-> & I & _ & Lk). split; auto. split; auto. lia. Qed.

(** ** Dictionaries *)
Lemma digits_split (c : char) : is_digit c = false -> forall x y a b, Forall (fun d => is_digit d = true) x ->
  Forall (fun d => is_digit d = true) y -> x ++ c :: a = y ++ c :: b -> x = y /\ a = b.
Proof.
  intros Dc. induction x as [|d x IH]; intros [|e y] a b Fx Fy E; cbn [app] in E.
  - injection E as ->. auto.
  - injection E as <- _. inversion Fy; subst. congruence.
  - injection E as -> _. inversion Fx; subst. congruence.
  - injection E as <- E. inversion Fx; subst. inversion Fy; subst. destruct (IH y a b) as [-> ->]; auto.
Qed.

Lemma show_hex_acc : forall fuel n acc, show_hex fuel n acc = show_hex fuel n [] ++ acc.
Proof.
  induction fuel as [|fuel IH]; intros n acc; [reflexivity|]. cbn [show_hex]. cbv zeta. destruct (n <? 16)%N; [reflexivity|].
  rewrite IH, (IH _ [_]), <- app_assoc. reflexivity.
Qed.

Lemma hex_char_ok k : (k < 16)%N -> hex_digit (hex_char k) k /\ (k <> 0%N -> hex_char k <> "0"%char).
Proof.
  intros L. assert (E : In k [0; 1; 2; 3; 4; 5; 6; 7; 8; 9; 10; 11; 12; 13; 14; 15]%N) by (cbn; lia). cbn [In] in E.
  repeat (destruct E as [<-|E]; [split; [vm_compute; tauto|intros; vm_compute; congruence]|]). destruct E.
Qed.

Lemma show_hex_ok : forall fuel n, (n < 16 ^ N.of_nat fuel)%N -> 0 < fuel ->
  hex_numeral (show_hex fuel n []) n /\ show_hex fuel n [] <> [] /\ (n <> 0%N -> hd_error (show_hex fuel n []) <> Some "0"%char).
Proof.
  induction fuel as [|fuel IH]; intros n L F; [lia|]. cbn [show_hex]. cbv zeta. destruct (N.ltb_spec n 16) as [S|S].
  - rewrite N.mod_small by lia. destruct (hex_char_ok n S) as [D Z]. split.
    + replace n with (16 * 0 + n)%N at 2 by lia. change [?c] with ([] ++ [c]). apply hex_snoc; [constructor|auto].
    + split; [discriminate|]. intros Nz E. injection E as E. exact (Z Nz E).
  - destruct fuel as [|fuel]; [cbn in L; lia|]. rewrite show_hex_acc.
    assert (L' : (n / 16 < 16 ^ N.of_nat (Datatypes.S fuel))%N).
    { apply N.div_lt_upper_bound; [lia|]. rewrite Nat2N.inj_succ, N.pow_succ_r' in L. exact L. }
    destruct (IH (n / 16)%N L' ltac:(lia)) as [Nu [Ne Nz]]. split.
    + rewrite (N.div_mod n 16) at 3 by lia. apply hex_snoc; auto. apply hex_char_ok, N.mod_lt. lia.
    + assert (n / 16 <> 0)%N as Q by (intros E; apply N.div_small_iff in E; lia). specialize (Nz Q).
      destruct (show_hex (Datatypes.S fuel) (n / 16) []) as [|c s]; [congruence|]. cbn [app]. split; [discriminate|auto].
Qed.

Lemma show_pointer_ok p : (p < 2 ^ 64)%N -> address_text p (show_pointer p).
Proof.
  intros L. unfold show_pointer. destruct (N.eqb_spec p 0) as [->|D]; [constructor|].
  destruct (show_hex_ok 16 p) as (Nu & _ & Z); [|lia|constructor; auto].
  replace (16 ^ N.of_nat 16)%N with (2 ^ 64)%N by (vm_compute; reflexivity). exact L.
Qed.

Lemma hex_digit_fun c k k' : hex_digit c k -> hex_digit c k' -> k = k'.
Proof.
  unfold hex_digit. cbn [lit combine String.list_ascii_of_string In]. intros H H'.
  repeat (destruct H as [H|H]; [injection H as <- <-; repeat (destruct H' as [H'|H']; [try discriminate H'; injection H' as <-; reflexivity|]); destruct H'|]).
  destruct H.
Qed.

Lemma hex_fun s n : hex_numeral s n -> forall n', hex_numeral s n' -> n = n'.
Proof.
  induction 1 as [|s n c k H IH D]; intros n' H'; inversion H' as [E|s' m d j H1 D' E]; subst; auto.
  - symmetry in E. destruct (app_cons_not_nil s' [] d). auto.
  - symmetry in E. destruct (app_cons_not_nil s [] c). auto.
  - apply app_inj_tail in E. destruct E as [-> ->]. rewrite (IH _ H1), (hex_digit_fun _ _ _ D D'). reflexivity.
Qed.

Lemma address_fun s p q : address_text p s -> address_text q s -> p = q.
Proof.
  intros H H'. inversion H; inversion H'; subst; auto; try discriminate.
  match goal with E : _ = lit "0x" ++ _ |- _ => apply app_inv_head in E; subst end. eapply hex_fun; eauto.
Qed.
