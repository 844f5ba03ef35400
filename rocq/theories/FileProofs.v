(** * FileProofs: what ends up in a file. *)
From Verif Require Import Base ModelDawg ModelSerial ModelWire SpecWire SpecDawg.
Require Import ZifyBool ZifyNat ZifyN.
Local Open Scope nat_scope.

Record sound (room : N) (bs : list byte) (f : ofile) : Prop := {
  so_good : good f = true -> written f ++ pending f = bs /\ (N.of_nat (length (written f)) + space f = room)%N;
  so_bad : good f = false -> pending f = [] /\ space f = 0%N /\ N.to_nat room < length bs /\ written f = firstn (N.to_nat room) bs;
}.

Lemma sound_start room : sound room [] (OFile true [] [] room).
Proof. constructor; cbn; [auto with arith|discriminate]. Qed.

Lemma sound_flush room bs f more : sound room bs f -> good f = true -> sound room (bs ++ more) (flush f more).
Proof.
  intros [Gd _] G. destruct (Gd G) as (E & S). unfold flush. rewrite G. cbn [andb].
  destruct (N.leb_spec (N.of_nat (length (pending f ++ more))) (space f)) as [Le|Gt]; constructor; cbn [good pending written space]; try discriminate; intros _.
  - rewrite firstn_all2 by lia. rewrite app_nil_r, app_assoc, E. split; auto. rewrite app_length, app_length in *.
    rewrite <- E, !app_length. lia.
  - assert (Lf : length (firstn (N.to_nat (space f)) (pending f ++ more)) = N.to_nat (space f)) by (rewrite firstn_length; lia).
    split; auto. split; [lia|]. split.
    + rewrite <- E, <- app_assoc, app_length. lia.
    + rewrite <- E, <- app_assoc, (firstn_app (N.to_nat room)). rewrite (firstn_all2 (written f)) by lia. f_equal. f_equal. lia.
Qed.

Lemma sound_write size room bs f more : sound room bs f -> sound room (bs ++ more) (write size f more).
Proof.
  intros S. unfold write. destruct (good f) eqn:G; cbn [negb].
  - destruct (N.leb_spec (N.of_nat (length (pending f) + length more)) size); [|apply sound_flush; auto].
    destruct (so_good _ _ _ S G) as (E & Sp). constructor; cbn; [|discriminate]. intros _.
    rewrite app_assoc, E. auto.
  - destruct (so_bad _ _ _ S G) as (P & Sp & L & E). constructor; rewrite G; [discriminate|]. intros _.
    split; auto. split; auto. rewrite app_length. split; [lia|].
    rewrite firstn_app, (proj2 (Nat.sub_0_le _ _)) by lia. cbn. rewrite app_nil_r. auto.
Qed.

Lemma sound_pieces size room pieces : forall bs f, sound room bs f ->
  sound room (bs ++ concat pieces) (fold_left (write size) pieces f).
Proof.
  induction pieces as [|p pieces IH]; intros bs f S; cbn [concat fold_left].
  - rewrite app_nil_r. auto.
  - rewrite app_assoc. apply IH. apply sound_write. auto.
Qed.

Lemma sound_all size room pieces : sound room (concat pieces) (fold_left (write size) pieces (OFile true [] [] room)).
Proof. apply (sound_pieces size room pieces []), sound_start. Qed.

(** close(). *)
Lemma closed room bs f : sound room bs f -> written (flush f []) = firstn (N.to_nat room) bs.
Proof.
  intros S. destruct (good f) eqn:G.
  - pose proof (sound_flush _ _ _ [] S G) as S'. rewrite app_nil_r in S'.
    destruct (good (flush f [])) eqn:G'.
    + destruct (so_good _ _ _ S' G') as (E & Sp). change (pending (flush f [])) with (@nil byte) in E.
      rewrite app_nil_r in E. rewrite E in Sp |- *. rewrite firstn_all2; auto. lia.
    + apply (so_bad _ _ _ S' G').
  - destruct (so_bad _ _ _ S G) as (P & Sp & L & E). unfold flush. cbn. rewrite P, Sp. cbn. rewrite app_nil_r. auto.
Qed.

Lemma written_prefix room bs f : sound room bs f -> exists back, bs = written f ++ back.
Proof.
  intros S. destruct (good f) eqn:G.
  - destruct (so_good _ _ _ S G) as (E & _). eauto.
  - destruct (so_bad _ _ _ S G) as (_ & _ & _ & ->). eexists. symmetry. apply firstn_skipn.
Qed.

Lemma enough_room room bs f : sound room bs f -> (N.of_nat (length bs) <= room)%N -> good f = true.
Proof. intros S L. destruct (good f) eqn:G; auto. destruct (so_bad _ _ _ S G) as (_ & _ & X & _). lia. Qed.

(** Everything fits the buffer: nothing is written before close(). *)
Lemma all_buffered size pieces : forall f, good f = true -> (N.of_nat (length (pending f) + length (concat pieces)) <= size)%N ->
  good (fold_left (write size) pieces f) = true.
Proof.
  induction pieces as [|p pieces IH]; intros f G L; cbn [fold_left concat] in *; auto. rewrite app_length in L.
  apply IH.
  - unfold write. rewrite G. cbn [negb]. destruct (N.leb_spec (N.of_nat (length (pending f) + length p)) size); auto. lia.
  - unfold write. rewrite G. cbn [negb]. destruct (N.leb_spec (N.of_nat (length (pending f) + length p)) size); [|lia].
    cbn. rewrite app_length. lia.
Qed.

Lemma crash_prefix size room pieces contents : found_after_crash size room pieces contents ->
  exists back, concat pieces = contents ++ back.
Proof.
  intros (k & now & next & some & rest & En & Ex & Ec & Ew).
  assert (Sp : forall j, concat pieces = concat (firstn j pieces) ++ concat (skipn j pieces)).
  { intros j. rewrite <- concat_app, firstn_skipn. auto. }
  assert (P : forall j, exists back, concat pieces = written (after_pieces size room pieces j) ++ back).
  { intros j. unfold after_pieces. destruct (written_prefix _ _ _ (sound_all size room (firstn j pieces))) as (b & E).
    exists (b ++ concat (skipn j pieces)). rewrite app_assoc, <- E. apply Sp. }
  destruct Ex as [->| ->].
  - destruct (P (S k)) as (b & E). rewrite E, Ew, <- app_assoc. eauto.
  - assert (exists back, concat pieces = written (flush now []) ++ back) as (b & E); [|rewrite E, Ew, <- app_assoc; eauto].
    rewrite En. unfold after_pieces. rewrite (closed room (concat (firstn k pieces))) by apply sound_all.
    exists (skipn (N.to_nat room) (concat (firstn k pieces)) ++ concat (skipn k pieces)).
    rewrite app_assoc, firstn_skipn. apply Sp.
Qed.
