(** * Property C110: dictionary files that say the same. *)
From Coq Require Import Sorting.Sorted Sorting.Permutation.
From Verif Require Import Base Spec ModelTransducer ModelDawg ModelSerial ModelWire SpecDawg SpecSerial SpecWire SpecFormat SpecAlike SpecSame SpecMeaning
  TreeProofs HeapProofs DawgProofs SerialProofs FormatProofs MeaningProofs PropsDawg PropsSame.
From Verif Require SaveRoundProofs SpecQuery.

(** ** C110: what counts in a file is what it says, not how.

    Two well-formed messages are read one after the other.  No comparison of the two
    dictionaries reads what is not there; one that ends tells whether the messages
    mean the same, and it ends unless one can go round in both.  If they mean the
    same, nothing tells the dictionaries apart. *)
Lemma read_both : forall alloc h m m', allocator alloc -> well_formed m -> well_formed m' ->
  exists h1 b h2 b', from_protobuf alloc h m = Ok (h1, b) /\ from_protobuf alloc h1 m' = Ok (h2, b') /\
    (forall p, allocated h p -> hget h2 p = hget h p) /\
    d_size (b_dawg b) = m_size m /\ d_size (b_dawg b') = m_size m' /\
    exists f f', d_root (b_dawg b) = f (m_root m) /\ d_root (b_dawg b') = f' (m_root m') /\
      present h1 m f /\ present h2 m f /\ present h2 m' f'.
Proof.
  intros alloc h m m' A Wf Wf'. destruct (from_protobuf_ok alloc h m A Wf) as (f & h1 & E1 & L1).
  destruct (from_protobuf_ok alloc h1 m' A Wf') as (f' & h2 & E2 & L2). eexists h1, _, h2, _.
  split; [exact E1|]. split; [exact E2|].
  assert (K : forall h h' m f, laid_out h h' (m_nodes m) (m_finals m) f (m_edges m) -> forall p, allocated h p -> hget h' p = hget h p).
  { clear. intros h h' m f L p Al. apply (lo_rest _ _ _ _ _ _ L). intros i I ->. apply Al. apply (lo_fresh _ _ _ _ _ _ L); auto. }
  split.
  { intros p Al. rewrite (K _ _ _ _ L2 p); [exact (K _ _ _ _ L1 p Al)|]. unfold allocated. rewrite (K _ _ _ _ L1 p Al). exact Al. }
  split; [reflexivity|]. split; [reflexivity|]. exists f, f'. split; [reflexivity|]. split; [reflexivity|].
  pose proof (laid_present _ _ _ _ L1) as P1. split; [exact P1|]. split; [exact (present_kept _ _ _ _ P1 (K _ _ _ _ L2))|exact (laid_present _ _ _ _ L2)].
Qed.

Theorem C110_messages : forall alloc h m m', allocator alloc -> well_formed m -> well_formed m' ->
  exists h1 b h2 b', from_protobuf alloc h m = Ok (h1, b) /\ from_protobuf alloc h1 m' = Ok (h2, b') /\
    (forall p, allocated h p -> hget h2 p = hget h p) /\
    (forall fuel, match dawg_eq fuel h2 (b_dawg b) (b_dawg b') with
       | Ok answer => answer = true <-> means_same m m'
       | UB => False
       | OOF => True end) /\
    (~ goes_round m \/ ~ goes_round m' -> exists answer, runs_to (fun fuel => dawg_eq fuel h2 (b_dawg b) (b_dawg b')) answer) /\
    (means_same m m' -> alike h2 (b_dawg b) h2 (b_dawg b')).
Proof.
  intros alloc h m m' A Wf Wf'. destruct (read_both alloc h m m' A Wf Wf') as (h1 & b & h2 & b' & E1 & E2 & K & S & S' & f & f' & R & R' & _ & P & P').
  exists h1, b, h2, b'. split; [exact E1|]. split; [exact E2|]. split; [exact K|].
  assert (So : sound h2 (d_root (b_dawg b))). { rewrite R. exact (present_sound _ _ _ Wf P _ (wf_root _ Wf)). }
  assert (So' : sound h2 (d_root (b_dawg b'))). { rewrite R'. exact (present_sound _ _ _ Wf' P' _ (wf_root _ Wf')). }
  assert (M : means_same m m' <-> d_size (b_dawg b) = d_size (b_dawg b') /\ same_strings h2 (d_root (b_dawg b)) h2 (d_root (b_dawg b'))).
  { rewrite S, S', R, R', <- (same_meaning _ _ _ _ _ _ Wf Wf' P P'). reflexivity. }
  destruct (C106_compare h2 (b_dawg b) (b_dawg b') So So') as (C1 & C2 & _). split; [|split].
  - intros fuel. specialize (C1 fuel). destruct (dawg_eq fuel h2 (b_dawg b) (b_dawg b')); auto. rewrite C1, M. reflexivity.
  - intros [N|N]; apply C2; right; [left; rewrite R|right; rewrite R']; intros Ro; apply N; eapply present_rounds; eauto.
  - intros X. apply M in X. destruct X as (X & Y). apply C106_alike; auto.
Qed.
Print Assumptions C110_messages.

(** The same for files, and the two may be read in different programs. *)
Theorem C110_files : forall alloc alloc' h h' bytes bytes' m m', allocator alloc -> allocator alloc' ->
  are_bytes bytes -> are_bytes bytes' -> (N.of_nat (length bytes) <= INT_MAX)%N -> (N.of_nat (length bytes') <= INT_MAX)%N ->
  encodes bytes m -> encodes bytes' m' -> well_formed m -> well_formed m' -> means_same m m' ->
  exists h1 b h1' b', deserialize_file alloc h (Some bytes) = Ok (h1, Some b) /\
    deserialize_file alloc' h' (Some bytes') = Ok (h1', Some b') /\ alike h1 (b_dawg b) h1' (b_dawg b').
Proof.
  intros alloc alloc' h h' bytes bytes' m m' A A' B B' L L' En En' Wf Wf' [Es St]. apply decode_iff in En; auto. apply decode_iff in En'; auto.
  destruct (from_protobuf_ok alloc h m A Wf) as (f & h1 & E & Lo). destruct (from_protobuf_ok alloc' h' m' A' Wf') as (f' & h1' & E' & Lo').
  eexists h1, _, h1', _.
  split; [unfold deserialize_file, parse_from; rewrite En; cbn [rbind deserialize]; rewrite E; reflexivity|].
  split; [unfold deserialize_file, parse_from; rewrite En'; cbn [rbind deserialize]; rewrite E'; reflexivity|].
  apply laid_present in Lo, Lo'. apply C106_alike; cbn [b_dawg d_root d_size]; auto.
  - exact (present_sound _ _ _ Wf Lo _ (wf_root _ Wf)).
  - exact (present_sound _ _ _ Wf' Lo' _ (wf_root _ Wf')).
  - now apply same_meaning.
Qed.
Print Assumptions C110_files.

(** Other numbers for the nodes, another order, repetitions, and other high bytes of
    the labels do not change what a message says. *)
Theorem C110_renamed : forall g m m', well_formed m -> renames g m m' -> means_same m m'.
Proof. exact renames_means. Qed.
Print Assumptions C110_renamed.

(** A dictionary saved where char is unsigned and read here is the dictionary. *)
Theorem C110_elsewhere : forall alloc h d m g m' h1, allocator alloc -> sound h (d_root d) ->
  runs_to (fun fuel => to_protobuf fuel h d) m -> from_elsewhere g m m' ->
  exists h2 b, from_protobuf alloc h1 m' = Ok (h2, b) /\ alike h d h2 (b_dawg b).
Proof.
  intros alloc h d m g m' h1 A S R F. destruct (SaveRoundProofs.saved h d S) as (m0 & R0 & De). rewrite <- (runs_to_det _ _ _ _ R R0) in *. clear m0 R0.
  pose proof (describes_well_formed _ _ _ De) as Wf.
  assert (Fi : forall i, In i (m_finals m) -> In i (m_nodes m)). { intros i I. apply (ds_finals _ _ _ De) in I. apply (ds_nodes _ _ _ De). apply I. }
  pose proof (elsewhere_well_formed _ _ _ Wf F) as Wf'. pose proof (renames_means _ _ _ Wf (elsewhere_renames _ _ _ Wf Fi F)) as [Es St].
  destruct (SaveRoundProofs.saved_and_read alloc h d m h1 A S De) as (h2 & b & E & S2 & Al & _).
  destruct (from_protobuf_ok alloc h1 m A Wf) as (f & h2' & E0 & Lo). rewrite E in E0. injection E0 as <- ->. cbn [b_dawg d_root] in *.
  destruct (from_protobuf_ok alloc h1 m' A Wf') as (f' & h3 & E' & Lo'). exists h3. eexists. split; [exact E'|].
  eapply alike_trans; [exact Al|]. apply laid_present in Lo, Lo'. apply C106_alike; cbn [b_dawg d_root d_size]; auto.
  - exact (present_sound _ _ _ Wf' Lo' _ (wf_root _ Wf')).
  - now apply same_meaning.
Qed.
Print Assumptions C110_elsewhere.

(** ** Examples *)

(** The dictionary of two words with letters beyond 127, saved here and elsewhere: other
    addresses, labels without sign extension, edges by unsigned labels. *)
Definition accented : list str := [["a"; "233"]; ["232"]]%char.
Definition moved (i : N) : N := (i * 16 + 4096)%N.
Definition accented_heap : heap := Eval vm_compute in match sorted_dawg 20 bump [] accented with Ok (h, _) => h | _ => [] end.
Definition accented_dawg : dawg := Eval vm_compute in match sorted_dawg 20 bump [] accented with Ok (_, Some b) => b_dawg b | _ => Dawg null 0 end.
Definition saved_here : message := Eval vm_compute in match to_protobuf 20 accented_heap accented_dawg with Ok m => m | _ => empty_message end.
Definition saved_elsewhere : message :=
  Message (rev (map moved (m_nodes saved_here))) (map moved (m_finals saved_here))
    (rev (map (unsigned_edge moved) (m_edges saved_here))) (moved (m_root saved_here)) (m_size saved_here).

Example C110_elsewhere_case : saved_here = Message [1; 2; 3]%N [3]%N [EdgeMsg 1 4294967272 3; EdgeMsg 1 97 2; EdgeMsg 2 4294967273 3]%N 1 2 /\
  m_edges saved_elsewhere = [EdgeMsg 4128 233 4144; EdgeMsg 4112 97 4128; EdgeMsg 4112 232 4144]%N /\
  sound accented_heap (d_root accented_dawg) /\
  runs_to (fun fuel => to_protobuf fuel accented_heap accented_dawg) saved_here /\ from_elsewhere moved saved_here saved_elsewhere.
Proof.
  split; [vm_compute; reflexivity|]. split; [vm_compute; reflexivity|]. split; [|split].
  - assert (R : runs_to (fun fuel => sorted_dawg fuel bump [] accented) (accented_heap, Some (Builder accented_dawg [Ascii.ascii_of_N 232] None))).
    { exists 20. intros fuel H. do 20 (destruct fuel as [|fuel]; [lia|]). vm_compute. reflexivity. }
    exact (proj1 C106_sound _ _ _ (SpecQuery.dictionary_sorted _ _ _ _ _ bump_allocator R)).
  - exists 20. intros fuel H. do 20 (destruct fuel as [|fuel]; [lia|]). vm_compute. reflexivity.
  - constructor; try reflexivity.
    + apply Permutation_sym, Permutation_rev.
    + apply Permutation_sym, Permutation_rev.
    + intros i j _ _ E. unfold moved in E. lia.
Qed.

(** Two small messages for the word "a"; in the second, "b" leads to a node from which
    no term can be reached.  They have the same terms, but they are not equal. *)
Definition straight : message := Message [1; 2]%N [2]%N [EdgeMsg 1 97 2]%N 1 1.
Definition dead_end : message := Message [7; 8; 9]%N [8]%N [EdgeMsg 7 98 9; EdgeMsg 7 353 8]%N 7 1.

Example C110_messages_case : well_formed straight /\ well_formed dead_end /\
  (forall w, spells straight w <-> spells dead_end w) /\ ~ means_same straight dead_end /\ ~ goes_round straight.
Proof.
  assert (S1 : forall w j, leads (m_edges straight) 1 w j <-> (w = [] /\ j = 1%N) \/ (w = [Ascii.ascii_of_N 97] /\ j = 2%N)).
  { intros w j. split.
    - intros L. destruct w as [|c w]; [inversion L; auto|]. apply leads_inv in L. destruct L as (e & [<-|[]] & _ & <- & L).
      destruct w as [|c w]; [inversion L; subst; right; split; reflexivity|]. apply leads_inv in L. destruct L as (e & [<-|[]] & X & _). discriminate X.
    - intros [[-> ->]|[-> ->]]; [constructor|]. apply (leads_cons _ (EdgeMsg 1 97 2)); [left; reflexivity|]. constructor. }
  assert (S2 : forall w j, leads (m_edges dead_end) 7 w j <-> (w = [] /\ j = 7%N) \/ (w = [Ascii.ascii_of_N 97] /\ j = 8%N) \/ (w = [Ascii.ascii_of_N 98] /\ j = 9%N)).
  { intros w j. split.
    - intros L. destruct w as [|c w]; [inversion L; auto|]. apply leads_inv in L. destruct L as (e & [<-|[<-|[]]] & _ & <- & L);
        (destruct w as [|c w]; [inversion L; subst; right; (left; split; reflexivity) || (right; split; reflexivity)|]);
        apply leads_inv in L; destruct L as (e & [<-|[<-|[]]] & X & _); discriminate X.
    - intros [[-> ->]|[[-> ->]|[-> ->]]]; [constructor| |].
      + apply (leads_cons _ (EdgeMsg 7 353 8)); [right; left; reflexivity|]. constructor.
      + apply (leads_cons _ (EdgeMsg 7 98 9)); [left; reflexivity|]. constructor. }
  assert (W1 : well_formed straight).
  { constructor.
    - intros e [<-|[]]; cbn; auto.
    - intros e [<-|[]]; cbn; auto.
    - repeat constructor. intros [].
    - cbn; auto. }
  assert (W2 : well_formed dead_end).
  { constructor.
    - intros e [<-|[<-|[]]]; cbn; auto.
    - intros e [<-|[<-|[]]]; cbn; auto.
    - repeat constructor; [|intros []]. intros [X|[]]. vm_compute in X. discriminate X.
    - cbn; auto. }
  split; [exact W1|]. split; [exact W2|]. split; [|split].
  - intros w. unfold spells. cbn [m_root straight dead_end]. split.
    + intros (j & L & F). apply S1 in L. destruct L as [[-> ->]|[-> ->]]; destruct F as [F|[]]; try discriminate F.
      exists 8%N. split; [apply S2; auto|]. cbn; auto.
    + intros (j & L & F). apply S2 in L. destruct L as [[-> ->]|[[-> ->]|[-> ->]]]; destruct F as [F|[]]; try discriminate F.
      exists 2%N. split; [apply S1; auto|]. cbn; auto.
  - intros [_ X]. destruct (X [Ascii.ascii_of_N 98]) as (_ & Y). destruct (proj2 Y) as (j & L).
    + exists 9%N. apply S2. auto.
    + apply S1 in L. destruct L as [[L _]|[L _]]; vm_compute in L; discriminate L.
  - intros (v & j & c & w & L & L'). apply S1 in L. destruct L as [[_ ->]|[_ ->]].
    + apply S1 in L'. destruct L' as [[X _]|[_ X]]; discriminate X.
    + apply leads_inv in L'. destruct L' as (e & [<-|[]] & X & _). discriminate X.
Qed.

(** The files of the two messages of the first example. *)
Example C110_files_case : encodes (encode saved_here) saved_here /\ encodes (encode saved_elsewhere) saved_elsewhere /\
  are_bytes (encode saved_here) /\ are_bytes (encode saved_elsewhere) /\ encode saved_here <> encode saved_elsewhere /\
  (N.of_nat (length (encode saved_here)) <= INT_MAX)%N /\ (N.of_nat (length (encode saved_elsewhere)) <= INT_MAX)%N /\
  well_formed saved_here /\ well_formed saved_elsewhere /\ means_same saved_here saved_elsewhere /\ renames moved saved_here saved_elsewhere.
Proof.
  destruct C110_elsewhere_case as (_ & _ & So & R & F).
  destruct (SaveRoundProofs.saved _ _ So) as (m0 & R0 & De). rewrite <- (runs_to_det _ _ _ _ R R0) in De. clear m0 R0.
  pose proof (describes_well_formed _ _ _ De) as Wf.
  assert (Fi : forall i, In i (m_finals saved_here) -> In i (m_nodes saved_here)). { intros i [<-|[]]. cbn. auto. }
  pose proof (elsewhere_renames _ _ _ Wf Fi F) as Rn.
  assert (L1 : not_too_long saved_here) by (vm_compute; discriminate).
  assert (L2 : not_too_long saved_elsewhere) by (vm_compute; discriminate).
  split; [|split; [|split; [apply encode_bytes|split; [apply encode_bytes|split; [|split; [exact L1|split; [exact L2|]]]]]]].
  - apply encode_encodes; auto. constructor; cbn; intros; repeat match goal with H : _ \/ _ |- _ => destruct H as [<-|H] | H : False |- _ => destruct H end; repeat split; reflexivity.
  - apply encode_encodes; auto. constructor; cbn; intros; repeat match goal with H : _ \/ _ |- _ => destruct H as [<-|H] | H : False |- _ => destruct H end; repeat split; reflexivity.
  - vm_compute. discriminate.
  - split; [exact Wf|]. split; [exact (elsewhere_well_formed _ _ _ Wf F)|]. split; [exact (renames_means _ _ _ Wf Rn)|exact Rn].
Qed.
