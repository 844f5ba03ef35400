(** * Property C86: temporary files and settings of the project's tests. *)
From Verif Require Import Base ModelTestTools SpecDawg SpecTestTools DistProofs.
Local Open Scope nat_scope.

Lemma exists_file_In : forall fs p, exists_file fs p = true <-> In p fs.
Proof.
  intros fs p. unfold exists_file. rewrite existsb_exists. split.
  - intros (q & I & E). apply str_eqb_eq in E. congruence.
  - intros I. exists p. split; auto. apply str_eqb_eq. auto.
Qed.

Lemma remove_file_In : forall fs p q, In q (remove_file fs p) <-> In q fs /\ q <> p.
Proof.
  intros fs p q. unfold remove_file. rewrite filter_In. split; intros [I X]; split; auto.
  - intros ->. rewrite (proj2 (str_eqb_eq p p) eq_refl) in X. discriminate.
  - destruct (str_eqb p q) eqn:E; auto. apply str_eqb_eq in E. congruence.
Qed.

Lemma gen_rand_str_next : forall rand len k, snd (gen_rand_str rand k len) = k + len.
Proof.
  induction len as [|len IH]; intros k; cbn [gen_rand_str]; [cbn; lia|].
  specialize (IH (S k)). destruct (gen_rand_str rand (S k) len) as [s k']. cbn [snd] in *. lia.
Qed.

Lemma gen_rand_str_map : forall rand len k, fst (gen_rand_str rand k len) = map (fun i => randchar (rand i)) (seq k len).
Proof.
  induction len as [|len IH]; intros k; cbn [gen_rand_str seq map]; auto.
  specialize (IH (S k)). destruct (gen_rand_str rand (S k) len) as [s k']. cbn [fst] in *. congruence.
Qed.

Lemma charset_drawn : forall i, i < 61 -> drawn (nth i charset "000"%char).
Proof.
  intros i L. do 61 (destruct i as [|i]; [cbv; intuition discriminate|]). lia.
Qed.

Lemma randchar_drawn : forall r, drawn (randchar r).
Proof.
  intros r. unfold randchar. apply charset_drawn. change (N.of_nat (length charset) - 1)%N with 61%N.
  pose proof (N.mod_lt r 61). lia.
Qed.

Definition draw (c : char) : N :=
  if (uchar c <=? 57)%N then (uchar c - 48)%N else if (uchar c <=? 90)%N then (uchar c - 55)%N else (uchar c - 61)%N.

Definition is_drawn (c : char) : bool :=
  ((48 <=? uchar c) && (uchar c <=? 57) || (65 <=? uchar c) && (uchar c <=? 90) || (97 <=? uchar c) && (uchar c <=? 121))%N.

Lemma draw_randchar : forall c, drawn c -> randchar (draw c) = c.
Proof.
  intros c D. assert (B : is_drawn c = true).
  { unfold is_drawn. unfold drawn in D. lia. }
  revert B. destruct c as [[] [] [] [] [] [] [] []]; vm_compute; intros B; try discriminate; reflexivity.
Qed.

(** ** Random names: ten digits or letters, never a z; every such string can occur. *)
Theorem C86_letters : forall len s,
  (exists rand, fst (gen_rand_str rand 0 len) = s) <-> length s = len /\ Forall drawn s.
Proof.
  intros len s. split.
  - intros (rand & <-). rewrite gen_rand_str_map. split; [rewrite map_length, seq_length; auto|].
    apply Forall_forall. intros c I. apply in_map_iff in I. destruct I as (i & <- & _). apply randchar_drawn.
  - intros [L F]. exists (fun i => draw (nth i s "000"%char)). rewrite gen_rand_str_map. subst len.
    apply nth_ext with (d := randchar (draw "000"%char)) (d' := "000"%char); [rewrite map_length, seq_length; auto|].
    intros i Li. rewrite map_length, seq_length in Li.
    rewrite nth_indep with (d' := randchar (draw (nth 0 s "000"%char))) by (rewrite map_length, seq_length; auto).
    rewrite (map_nth (fun i => randchar (draw (nth i s "000"%char)))). rewrite seq_nth by auto. cbn [plus].
    apply draw_randchar. rewrite Forall_forall in F. apply F, nth_In. auto.
Qed.
Print Assumptions C86_letters.

Example C86_letters_case : fst (gen_rand_str (fun i => N.of_nat (i * 13)) 0 10) = lit "0DQdq4HUhu" /\
  ~ drawn "z" /\ fst (gen_rand_str (fun _ => 61%N) 0 3) = lit "000".
Proof. split; [reflexivity|]. split; [|reflexivity]. cbv. intuition discriminate. Qed.

(** ** gen_temp_path *)
Lemma file_nym_dotted : forall prefix r ext, file_nym prefix r ext = prefix ++ r ++ dotted ext.
Proof. intros. unfold file_nym, dotted. destruct ext as [|c ext]; auto. destruct (ceqb c "."); auto. Qed.

Lemma temp_nym_ok : forall fuel rand dir fs prefix ext k p k', temp_nym fuel rand dir fs prefix ext k = Ok (p, k') ->
  exists n, k' = k + 10 * S n /\ p = join dir (prefix ++ fst (gen_rand_str rand (k + 10 * n) 10) ++ dotted ext) /\ ~ In p fs /\
    forall m, m < n -> In (join dir (prefix ++ fst (gen_rand_str rand (k + 10 * m) 10) ++ dotted ext)) fs.
Proof.
  induction fuel as [|fuel IH]; intros rand dir fs prefix ext k p k' E; [discriminate|]. cbn [temp_nym] in E.
  pose proof (gen_rand_str_next rand 10 k) as Nx. pose proof (f_equal fst (eq_refl (gen_rand_str rand k 10))) as Fs.
  destruct (gen_rand_str rand k 10) as [r k1] eqn:G. cbn [snd] in Nx. subst k1. rewrite file_nym_dotted in E.
  destruct (exists_file fs (join dir (prefix ++ r ++ dotted ext))) eqn:X.
  - apply IH in E. destruct E as (n & -> & -> & NI & All). exists (S n).
    replace (k + 10 + 10 * n) with (k + 10 * S n) in * by lia. split; [lia|]. split; auto. split; auto.
    intros [|m] L.
    + replace (k + 10 * 0) with k by lia. rewrite G. apply exists_file_In. auto.
    + specialize (All m). replace (k + 10 + 10 * m) with (k + 10 * S m) in All by lia. apply All. lia.
  - injection E as <- <-. exists 0. replace (k + 10 * 0) with k by lia. rewrite G. split; [lia|]. split; auto. split; [|lia].
    rewrite <- exists_file_In. congruence.
Qed.

Lemma join_located : forall dir name, located dir name (join dir name).
Proof.
  intros dir name. unfold join.
  assert (P : hd_error name <> Some "/"%char -> located dir name
    match rev dir with [] => name | d :: _ => if ceqb d "/" then dir ++ name else dir ++ lit "/" ++ name end).
  { intros NA. destruct dir as [|d dir _] using rev_ind; [constructor; auto|]. rewrite rev_unit. unfold ceqb.
    destruct (Ascii.eqb_spec d "/"); [subst|]; rewrite <- app_assoc; constructor; auto. }
  destruct name as [|c name].
  - specialize (P ltac:(discriminate)). destruct (rev dir); [exact P|]. rewrite app_nil_r in P. exact P.
  - unfold ceqb at 1. destruct (Ascii.eqb_spec c "/"); [subst; constructor|]. apply P. cbn. congruence.
Qed.

(** The path that is handed out does not exist; it is the directory, the prefix, ten
    random characters and the extension with its dot. *)
Theorem C86_path : forall fuel rand dir fs prefix ext t p t',
  gen_temp_path fuel rand dir fs prefix ext t = Ok (p, t') ->
  ~ In p fs /\ exists r, length r = 10 /\ Forall drawn r /\ located dir (prefix ++ r ++ dotted ext) p.
Proof.
  intros fuel rand dir fs prefix ext t p t' E. unfold gen_temp_path in E.
  destruct (temp_nym fuel rand dir fs prefix ext (next_rand t)) as [[nym k1]| |] eqn:T; cbn [rbind] in E; try discriminate.
  injection E as <- _. apply temp_nym_ok in T. destruct T as (n & _ & Ep & NI & _). split; auto.
  eexists. split; [|split; [|rewrite Ep; apply join_located]]; rewrite gen_rand_str_map.
  - rewrite map_length, seq_length. auto.
  - apply Forall_forall. intros c I. apply in_map_iff in I. destruct I as (i & <- & _). apply randchar_drawn.
Qed.
Print Assumptions C86_path.

(** Here the first name is taken. *)
Example C86_path_case : exists t,
  gen_temp_path 5 (fun i => N.of_nat (i * 13)) (lit "/tmp") [lit "/tmp/x-0DQdq4HUhu.pb"] (lit "x-") (lit "pb") tools_start
    = Ok (lit "/tmp/x-8LYlyCPcp3.pb", t).
Proof. eexists. vm_compute. reflexivity. Qed.

(** An absolute prefix leaves the directory. *)
Example C86_path_absolute : exists t,
  gen_temp_path 5 (fun i => N.of_nat (i * 13)) (lit "/tmp") [] (lit "/x-") [] tools_start = Ok (lit "/x-0DQdq4HUhu", t).
Proof. eexists. vm_compute. reflexivity. Qed.

Lemma temp_nym_step : forall fuel rand dir fs prefix ext k, temp_nym (S fuel) rand dir fs prefix ext k =
  if exists_file fs (join dir (prefix ++ fst (gen_rand_str rand k 10) ++ dotted ext))
  then temp_nym fuel rand dir fs prefix ext (k + 10) else Ok (join dir (prefix ++ fst (gen_rand_str rand k 10) ++ dotted ext), k + 10).
Proof.
  intros. cbn [temp_nym]. pose proof (gen_rand_str_next rand 10 k) as Nx.
  destruct (gen_rand_str rand k 10) as [r k1]. cbn [snd fst] in *. subst k1. rewrite file_nym_dotted. reflexivity.
Qed.

Lemma temp_nym_finds : forall n rand dir fs prefix ext k,
  ~ In (join dir (prefix ++ fst (gen_rand_str rand (k + 10 * n) 10) ++ dotted ext)) fs ->
  exists r, forall fuel, n < fuel -> temp_nym fuel rand dir fs prefix ext k = Ok r.
Proof.
  induction n as [|n IH]; intros rand dir fs prefix ext k NI.
  - replace (k + 10 * 0) with k in NI by lia. eexists. intros [|fuel] L; [lia|]. rewrite temp_nym_step.
    destruct (exists_file fs _) eqn:X; [apply exists_file_In in X; contradiction|]. reflexivity.
  - destruct (exists_file fs (join dir (prefix ++ fst (gen_rand_str rand k 10) ++ dotted ext))) eqn:X.
    + destruct (IH rand dir fs prefix ext (k + 10)) as (r & R). { replace (k + 10 + 10 * n) with (k + 10 * S n) by lia. auto. }
      exists r. intros [|fuel] L; [lia|]. rewrite temp_nym_step, X. apply R. lia.
    + eexists. intros [|fuel] L; [lia|]. rewrite temp_nym_step, X. reflexivity.
Qed.

(** It is found if and only if the random numbers ever yield a name that is not
    taken; otherwise the search never ends. *)
Theorem C86_ends : forall rand dir fs prefix ext t,
  let name n := join dir (prefix ++ fst (gen_rand_str rand (next_rand t + 10 * n) 10) ++ dotted ext) in
  ((exists n, ~ In (name n) fs) -> exists r, runs_to (fun fuel => gen_temp_path fuel rand dir fs prefix ext t) r) /\
  ((forall n, In (name n) fs) -> forall fuel, gen_temp_path fuel rand dir fs prefix ext t = OOF).
Proof.
  intros rand dir fs prefix ext t name. split.
  - intros (n & NI). destruct (temp_nym_finds n rand dir fs prefix ext (next_rand t) NI) as ([p k] & R).
    eexists. exists (S n). intros fuel L. unfold gen_temp_path. rewrite R by lia. cbn [rbind]. reflexivity.
  - intros All fuel. unfold gen_temp_path. enough (X : forall k, temp_nym fuel rand dir fs prefix ext (next_rand t + 10 * k) = OOF).
    { specialize (X 0). replace (next_rand t + 10 * 0) with (next_rand t) in X by lia. rewrite X. reflexivity. }
    induction fuel as [|fuel IH]; intros k; [reflexivity|]. rewrite temp_nym_step.
    pose proof (proj2 (exists_file_In _ _) (All k)) as X. unfold name in X. rewrite X. replace (next_rand t + 10 * k + 10) with (next_rand t + 10 * S k) by lia. apply IH.
Qed.
Print Assumptions C86_ends.

(** A generator that always returns the same number can be stuck. *)
Example C86_ends_case : forall fuel,
  gen_temp_path fuel (fun _ => 0%N) (lit "/tmp") [lit "/tmp/0000000000"] [] [] tools_start = OOF.
Proof.
  apply (C86_ends (fun _ => 0%N) (lit "/tmp") [lit "/tmp/0000000000"] [] [] tools_start).
  intros n. rewrite gen_rand_str_map. left. reflexivity.
Qed.

(** A place is found if and only if not all of these names are taken: when they are,
    the search never ends, whatever the random numbers; and every free one can be the
    one that is handed out. *)
Lemma located_join : forall dir name p, located dir name p -> p = join dir name.
Proof.
  intros dir name p L. destruct L as [dir name|name N|dir name N|dir c name N Nc]; unfold join, ceqb; rewrite ?rev_unit, ?Ascii.eqb_refl; auto.
  - destruct name as [|c name]; auto. destruct (Ascii.eqb_spec c "/"); auto.
  - destruct name as [|c name]; [cbn; rewrite ?app_nil_r, <- ?app_assoc; auto|].
    destruct (Ascii.eqb_spec c "/"); [subst; now cbn in N|]. now rewrite <- app_assoc.
  - destruct (Ascii.eqb_spec c "/"); [contradiction|].
    destruct name as [|a name]; [cbn; rewrite <- ?app_assoc; auto|].
    destruct (Ascii.eqb_spec a "/"); [subst; now cbn in N|]. now rewrite <- !app_assoc.
Qed.

Theorem C86_possible : forall dir fs prefix ext t p,
  (exists rand fuel t', gen_temp_path fuel rand dir fs prefix ext t = Ok (p, t')) <->
  ~ In p fs /\ exists r, length r = 10 /\ Forall drawn r /\ located dir (prefix ++ r ++ dotted ext) p.
Proof.
  intros dir fs prefix ext t p. split.
  - intros (rand & fuel & t' & E). exact (C86_path _ _ _ _ _ _ _ _ _ E).
  - intros (NI & r & L & F & Lo). exists (fun k => draw (nth (k - next_rand t) r "000"%char)), 1.
    set (rand := fun k => draw (nth (k - next_rand t) r "000"%char)).
    assert (Er : fst (gen_rand_str rand (next_rand t) 10) = r).
    { rewrite gen_rand_str_map. apply nth_ext with (d := randchar (rand 0)) (d' := "000"%char); [now rewrite map_length, seq_length|].
      intros i Li. rewrite map_length, seq_length in Li. rewrite (map_nth (fun i => randchar (rand i)) (seq (next_rand t) 10) 0).
      rewrite seq_nth by auto. unfold rand. replace (next_rand t + i - next_rand t) with i by lia.
      apply draw_randchar. rewrite Forall_forall in F. apply F, nth_In. lia. }
    eexists. unfold gen_temp_path. rewrite temp_nym_step, Er. apply located_join in Lo. rewrite <- Lo.
    destruct (exists_file fs p) eqn:X; [exfalso; now apply NI, exists_file_In|]. cbn [rbind]. reflexivity.
Qed.
Print Assumptions C86_possible.

Theorem C86_full : forall dir fs prefix ext,
  (forall r p, length r = 10 -> Forall drawn r -> located dir (prefix ++ r ++ dotted ext) p -> In p fs) ->
  forall rand t fuel, gen_temp_path fuel rand dir fs prefix ext t = OOF.
Proof.
  intros dir fs prefix ext All rand t. apply C86_ends. intros n. eapply All; [| |apply join_located]; rewrite gen_rand_str_map.
  - now rewrite map_length, seq_length.
  - apply Forall_forall. intros c I. apply in_map_iff in I. destruct I as (i & <- & _). apply randchar_drawn.
Qed.
Print Assumptions C86_full.

(** The name of ten zeros is taken; a name of ten nines is possible. *)
Example C86_possible_case : exists rand fuel t',
  gen_temp_path fuel rand (lit "/tmp") [lit "/tmp/a0000000000"] (lit "a") (lit "pb") tools_start = Ok (lit "/tmp/a9999999999.pb", t').
Proof.
  apply C86_possible. split; [intros [E|[]]; discriminate|]. exists (lit "9999999999"). split; [auto|]. split.
  - repeat constructor; cbv; intuition discriminate.
  - exact (located_plain (lit "/tm") "p" (lit "a9999999999.pb") ltac:(discriminate) ltac:(discriminate)).
Qed.

(** A directory with all names of that length. *)
Fixpoint all_names (n : nat) : list str :=
  match n with O => [[]] | S n => flat_map (fun c => map (cons c) (all_names n)) (map ascii_of_nat (seq 0 256)) end.

Lemma all_names_In : forall r, In r (all_names (length r)).
Proof.
  induction r as [|c r IH]; [now left|]. cbn [length all_names]. apply in_flat_map. exists c. split; [|now apply in_map].
  apply in_map_iff. exists (nat_of_ascii c). split; [apply ascii_nat_embedding|]. apply in_seq. pose proof (nat_ascii_bounded c). lia.
Qed.

Example C86_full_case : exists fs, forall rand t fuel, gen_temp_path fuel rand (lit "/tmp") fs (lit "x") (lit "pb") t = OOF.
Proof.
  exists (map (fun r => join (lit "/tmp") (lit "x" ++ r ++ lit ".pb")) (all_names 10)). apply C86_full.
  intros r p L _ Lo. apply located_join in Lo. subst p. apply in_map_iff. exists r. split; [reflexivity|]. rewrite <- L. apply all_names_In.
Qed.

(** ** When the program ends. *)
Lemma remove_gend_In : forall paths fs q, In q (remove_gend paths fs) <-> In q fs /\ ~ In q paths.
Proof.
  unfold remove_gend. induction paths as [|p paths IH]; intros fs q; cbn [fold_left].
  - cbn. tauto.
  - rewrite IH. destruct (exists_file fs p) eqn:X.
    + rewrite remove_file_In. cbn [In]. intuition congruence.
    + assert (NI : ~ In p fs) by (rewrite <- exists_file_In; congruence). cbn [In].
      split; intros [A B]; split; auto. intros [->|C]; auto.
Qed.

Lemma happens_tools : forall rand dir fs t evs names fs' t', happens rand dir fs t evs names fs' t' ->
  handlers t = (if Nat.eqb (length (gend_paths t)) 0 then 0 else 1) ->
  gend_paths t' = gend_paths t ++ names /\ handlers t' = (if Nat.eqb (length (gend_paths t')) 0 then 0 else 1).
Proof.
  intros rand dir fs t evs names fs' t' H. induction H as [| fuel fs t prefix ext p t1 evs names fs' t' G H IH| |]; intros Hh; auto.
  - rewrite app_nil_r. auto.
  - unfold gen_temp_path in G. destruct (temp_nym _ _ _ _ _ _ _) as [[nym k1]| |]; cbn [rbind] in G; try discriminate.
    injection G as -> <-. cbn [gend_paths handlers] in IH. rewrite <- app_assoc in IH. cbn [app] in IH. apply IH.
    rewrite app_length. cbn [length]. destruct (gend_paths t) as [|q l]; cbn [length] in *.
    + rewrite Hh. reflexivity.
    + rewrite Hh. cbn. replace (length l + 1) with (S (length l)) by lia. reflexivity.
Qed.

(** When the program ends, exactly the paths that were handed out are removed;
    whatever else was created stays. *)
Theorem C86_cleanup : forall rand dir fs evs names fs' t,
  happens rand dir fs tools_start evs names fs' t ->
  forall p, In p (at_exit (handlers t) (gend_paths t) fs') <-> In p fs' /\ ~ In p names.
Proof.
  intros rand dir fs evs names fs' t H p. destruct (happens_tools _ _ _ _ _ _ _ _ H eq_refl) as [Gp Hh]. cbn [gend_paths tools_start app] in Gp.
  rewrite Hh, Gp. destruct names as [|q names]; cbn [length Nat.eqb at_exit].
  - cbn. tauto.
  - apply remove_gend_In.
Qed.
Print Assumptions C86_cleanup.

(** While no file disappears and every path is used before the next is asked for, no
    path is handed out twice. *)
Inductive careful : list event -> list str -> Prop :=
| careful_nil : careful [] []
| careful_ask : forall prefix ext p evs names, careful evs names -> careful (Ask prefix ext :: Create p :: evs) (p :: names)
| careful_create : forall p evs names, careful evs names -> careful (Create p :: evs) names.

Theorem C86_distinct : forall rand dir fs t evs names fs' t',
  happens rand dir fs t evs names fs' t' -> careful evs names -> NoDup names /\ forall p, In p names -> ~ In p fs.
Proof.
  intros rand dir fs t evs names fs' t' H Ca. revert fs t fs' t' H. induction Ca as [|prefix ext p evs names Ca IH|p evs names Ca IH]; intros fs t fs' t' H.
  - split; [constructor|intros p []].
  - inversion H as [|? ? ? ? ? ? ? ? ? ? ? G H1| |]; subst. inversion H1 as [| |? ? ? ? ? ? ? H2|]; subst.
    apply IH in H2. destruct H2 as [Nd F]. apply C86_path in G. destruct G as [NI _].
    split; [constructor; auto; intros I; apply (F p I); left; auto|]. intros q [<-|I]; auto. intros J. apply (F q I). right; auto.
  - inversion H as [| |? ? ? ? ? ? ? H2|]; subst. apply IH in H2. destruct H2 as [Nd F]. split; auto. intros q I J. apply (F q I). right; auto.
Qed.
Print Assumptions C86_distinct.

(** Two paths asked for before either is used can be the same. *)
Theorem C86_distinct_refuted : exists rand dir evs names fs' t,
  happens rand dir [] tools_start evs names fs' t /\ evs = [Ask (lit "a") []; Ask (lit "a") []] /\ ~ NoDup names.
Proof.
  exists (fun _ => 0%N), (lit "/tmp"). do 4 eexists. split; [|split; [reflexivity|]].
  - apply happens_ask with (fuel := 1) (p := lit "/tmp/a0000000000") (t1 := Tools [lit "/tmp/a0000000000"] 10 1); [reflexivity|].
    apply happens_ask with (fuel := 1) (p := lit "/tmp/a0000000000") (t1 := Tools [lit "/tmp/a0000000000"; lit "/tmp/a0000000000"] 20 1); [reflexivity|].
    constructor.
  - intros Nd. inversion Nd as [|? ? NI _]; subst. apply NI. left. reflexivity.
Qed.
Print Assumptions C86_distinct_refuted.

Example C86_cleanup_case : exists names fs' t,
  happens (fun i => N.of_nat (i * 13)) (lit "/tmp/") [lit "/tmp/keep"] tools_start
    [Ask (lit "x-") (lit ".pb"); Create (lit "/tmp/x-0DQdq4HUhu.pb"); Create (lit "/tmp/mine"); Ask (lit "x-") (lit "pb"); Create (lit "/tmp/x-8LYlyCPcp3.pb"); Create (lit "/tmp/two")] names fs' t /\
  careful [Ask (lit "x-") (lit ".pb"); Create (lit "/tmp/x-0DQdq4HUhu.pb"); Create (lit "/tmp/mine"); Ask (lit "x-") (lit "pb"); Create (lit "/tmp/x-8LYlyCPcp3.pb"); Create (lit "/tmp/two")] names /\
  at_exit (handlers t) (gend_paths t) fs' = [lit "/tmp/two"; lit "/tmp/mine"; lit "/tmp/keep"].
Proof.
  exists [lit "/tmp/x-0DQdq4HUhu.pb"; lit "/tmp/x-8LYlyCPcp3.pb"]. do 2 eexists. split; [|split].
  - eapply happens_ask with (fuel := 1); [vm_compute; reflexivity|]. do 2 apply happens_create.
    eapply happens_ask with (fuel := 1); [vm_compute; reflexivity|]. do 2 apply happens_create. apply happens_nil.
  - constructor. constructor. constructor. constructor. constructor.
  - vm_compute. reflexivity.
Qed.

(** ** Settings *)
Lemma words_of_word : forall v word s, ~ In " "%char v -> words_of word (v ++ s) = words_of (word ++ v) s.
Proof.
  induction v as [|c v IH]; intros word s NI; cbn [app words_of]; [rewrite app_nil_r; auto|].
  cbn [In] in NI. unfold ceqb. destruct (Ascii.eqb_spec c " "); [subst; tauto|]. rewrite IH by tauto. rewrite <- app_assoc. reflexivity.
Qed.

Lemma name_and_value_eq : forall n v, ~ In "="%char n -> name_and_value (n ++ lit "=" ++ v) = (n, v).
Proof.
  induction n as [|c n IH]; intros v NI; cbn [app name_and_value lit]; [reflexivity|].
  cbn [In] in NI. unfold ceqb. destruct (Ascii.eqb_spec c "="); [subst; tauto|]. rewrite IH by tauto. reflexivity.
Qed.

(** What was configured is what is read back, if no value contains a blank. *)
Theorem C86_settings : forall config, (forall n v, In n known_settings -> config n = Some v -> ~ In " "%char v) ->
  read_settings (parse config) =
    flat_map (fun n => match config n with Some v => [(n, v)] | None => [] end) known_settings.
Proof.
  change known_settings with setting_names. intros config H. unfold read_settings, parse.
  assert (K : Forall (fun n => ~ In " "%char n /\ ~ In "="%char n) setting_names).
  { unfold setting_names. repeat constructor; cbn; intuition discriminate. }
  revert K H. generalize setting_names. induction l as [|n l IH]; intros K H; [reflexivity|]. cbn [flat_map].
  inversion K as [|? ? [K1 K2] K']; subst. specialize (IH K' (fun n v I => H n v (or_intror I))).
  destruct (config n) as [v|] eqn:E; [|exact IH].
  assert (NI : ~ In " "%char v) by (apply (H n v (or_introl eq_refl) E)).
  rewrite <- !app_assoc. rewrite words_of_word by auto. rewrite words_of_word by (cbn; intuition discriminate). rewrite words_of_word by auto.
  cbn [app]. change (lit " " ++ ?s) with (" "%char :: s). cbn [words_of]. change (ceqb " " " ") with true. cbn iota.
  destruct ((n ++ lit "=") ++ v) as [|c w] eqn:Ew.
  { apply app_eq_nil in Ew. destruct Ew as [Ew _]. apply app_eq_nil in Ew. destruct Ew. discriminate. }
  rewrite <- Ew. cbn [map]. rewrite <- app_assoc, name_and_value_eq by auto. rewrite IH. reflexivity.
Qed.
Print Assumptions C86_settings.

(** The settings of the repository (test/rapidcheck.yaml). *)
Definition repository_settings (n : str) : option str :=
  if str_eqb n (lit "max_success") then Some (lit "256")
  else if str_eqb n (lit "max_size") then Some (lit "32")
  else if str_eqb n (lit "verbose_progress") || str_eqb n (lit "verbose_shrinking") then Some (lit "1")
  else None.

Example C86_settings_case :
  (forall n v, In n known_settings -> repository_settings n = Some v -> ~ In " "%char v) /\
  parse repository_settings = lit "max_success=256 max_size=32 verbose_progress=1 verbose_shrinking=1 " /\
  read_settings (parse repository_settings) =
    [(lit "max_success", lit "256"); (lit "max_size", lit "32"); (lit "verbose_progress", lit "1"); (lit "verbose_shrinking", lit "1")].
Proof.
  split; [|split; reflexivity]. intros n v I E.
  repeat (destruct I as [<-|I]; [vm_compute in E; try discriminate; injection E as <-; cbn; intuition discriminate|]). destruct I.
Qed.

(** A value with a blank can set something else. *)
Theorem C86_settings_refuted : exists config,
  config (lit "noshrink") = None /\ In (lit "noshrink", lit "1") (read_settings (parse config)).
Proof.
  exists (fun n => if str_eqb n (lit "max_size") then Some (lit "3 noshrink=1") else None). split; [reflexivity|].
  vm_compute. auto.
Qed.
Print Assumptions C86_settings_refuted.
