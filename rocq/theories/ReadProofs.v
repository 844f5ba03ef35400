(** * Reading words with StateTransition *)
From Verif Require Import Base Spec SpecTransducer AlignProofs ConsumeProofs TransProofs StateProofs.
Local Open Scope nat_scope.

Lemma acc_accepts alg x n b p u k : valid alg x n b p -> (acc alg x p u k <-> accepts alg x k p u).
Proof.
  intros Hv. unfold acc, accepts, flag, ii, ee. destruct (sp p) eqn:E.
  - destruct alg.
    + apply sp_standard in Hv. congruence.
    + split.
      * intros (c1 & c2 & y & u' & H1 & H2 & H3 & H4). split; auto. exists c1, c2, y, u'; auto.
      * intros (H3 & c1 & c2 & y & u' & H1 & H2 & H4). exists c1, c2, y, u'; auto.
    + split.
      * intros (c1 & y & c & u' & H1 & H2 & H3 & H4). split; auto. exists c1, y, c, u'; auto.
      * intros (H3 & c1 & y & c & u' & H1 & H2 & H4). exists c1, y, c, u'; auto.
  - destruct alg; reflexivity.
Qed.

(** every valid position accepts something *)
Lemma valid_lives alg x n b p : valid alg x n b p -> exists u, acc alg x p u (ee p).
Proof.
  intros Hv. destruct p as [i e s]. destruct s.
  - destruct Hv as (V1 & V2 & V3 & V4 & V5 & V6 & V7 & V8). unfold acc, ii, ee in *; cbn [sp ti ne] in *.
    destruct alg; [congruence| |].
    + destruct (skip_cons x (N.to_nat i) ltac:(lia)) as (d & y & E1 & E2 & _).
      destruct (skip_cons x (S (N.to_nat i)) ltac:(lia)) as (d' & y' & E3 & E4 & _).
      rewrite E3 in E2; subst y. exists (d :: y'), d, d', y', y'. repeat split; auto.
      exists 0; split; [lia|apply aligned_refl].
    + destruct (skip_cons x (N.to_nat i) ltac:(lia)) as (d & y & E1 & E2 & _).
      exists (d :: y), d, y, d, y. repeat split; auto. exists 0; split; [lia|apply aligned_refl].
  - exists (skipn (N.to_nat i) x). rewrite acc_ns. unfold ee; cbn [ne]. split; [lia|].
    exists 0; split; [lia|apply aligned_refl].
Qed.

Lemma represents_lives alg x n v st : represents alg x n v st ->
  exists u, (N.of_nat (dst alg x (v ++ u)) <= n)%N.
Proof.
  intros [(Hne & Hv & _) Hrep]. destruct st as [|p st]; [congruence|].
  inversion Hv as [|? ? Hp _]; subst. destruct (valid_lives _ _ _ _ _ Hp) as (u & Hu).
  exists u. assert (dst alg x (v ++ u) <= ee p).
  { apply Hrep. - destruct Hp as (_ & H & _). unfold ee; lia. - exists p; simpl; auto. }
  destruct Hp as (_ & H' & _). unfold ee in *. lia.
Qed.

Lemma read_ok alg x n : manageable x n -> (n <= SIZE_MAX)%N ->
  forall v w st, small_depth (length w + length v) -> represents alg x n w st ->
  exists o, read alg x n st v = Ok o /\
    match o with
    | Some st' => represents alg x n (w ++ v) st'
    | None => forall u, (n < N.of_nat (dst alg x (w ++ v ++ u)))%N
    end.
Proof.
  intros Hx Hn. induction v as [|c v IH]; intros w st Hb Hrep.
  - exists (Some st). rewrite app_nil_r. auto.
  - destruct st as [|h st]; [destruct Hrep as [(H & _) _]; congruence|].
    destruct (represents_step alg x n w c h st Hx Hn) as (cv & Hcv & o & Ho & H); auto.
    { unfold small_depth in *. simpl in Hb. lia. }
    cbn [read]. rewrite Hcv. cbn [rbind]. rewrite Ho. cbn [rbind]. destruct o as [st'|].
    + destruct (IH (w ++ [c]) st') as (o' & Ho' & H'); auto.
      { rewrite app_length. unfold small_depth in *. simpl in *. lia. }
      exists o'; split; auto. destruct o'; [now rewrite <- app_assoc in H'|].
      intros u. specialize (H' u). now rewrite <- app_assoc in H'.
    + exists None; split; auto. intros u. apply H.
Qed.

Lemma read_initial alg x n v : manageable x n -> (n <= SIZE_MAX)%N -> small_depth (length v) ->
  exists o, read alg x n initial_state v = Ok o /\
    match o with
    | Some st' => represents alg x n v st'
    | None => forall u, (n < N.of_nat (dst alg x (v ++ u)))%N
    end.
Proof.
  intros Hx Hn Hb. apply (read_ok alg x n Hx Hn v [] initial_state); auto. apply represents_initial.
Qed.
