(** * C93: what building a dictionary holds in memory. *)
From Coq Require Import Sorting.Sorted Sorting.Permutation.
From Verif Require Import Base Spec ModelTransducer ModelDawg ModelBuildCost SpecDawg SpecQuery SpecCost TreeProofs HeapProofs BuildProofs BuildProofs2
  DawgProofs DestroyProofs QueryFacts PropsDawg PropsQuery BuildCostProofs BuildHoldProofs.
Local Open Scope nat_scope.

(** [nodes] are the nodes that exist in [h] but not in [h0]. *)
Definition new_nodes (h0 h : heap) (nodes : list ptr) : Prop :=
  NoDup nodes /\ forall p, In p nodes <-> ~ allocated h0 p /\ allocated h p.

(** While a dictionary is built, there is one node for every prefix of the
    accepted terms: nodes that turn out to be superfluous are kept.  finish() does
    not free them either. *)
Theorem C93_building : forall alloc h0 history, allocator alloc ->
  exists flags kept prefixes, greedy [] history flags kept /\ lists_prefixes kept prefixes /\
  (exists h b nodes, runs_to (fun fuel => under_construction fuel alloc h0 history) (flags, h, b) /\
     new_nodes h0 h nodes /\ length nodes = length prefixes) /\
  (exists h b nodes, runs_to (fun fuel => finished fuel alloc h0 history) (flags, h, b) /\
     new_nodes h0 h nodes /\ length nodes = length prefixes).
Proof.
  intros alloc h0 ts A. destruct (construction_counts alloc h0 ts A) as (B & flags & kept & h & b & w & frs & t0 & G & E & BI & S).
  destruct (prefixes_listed kept) as (ps & P & Lp). exists flags, kept, ps. split; [exact G|]. split; [exact P|]. split.
  - exists h, b, (d_root (b_dawg b) :: w_floating w). split; [exists B; exact E|].
    split; [exact (inv_new _ _ _ _ _ _ _ (bi_inv _ _ _ _ _ _ _ _ BI))|]. cbn [length]. congruence.
  - destruct (finish_ok B h0 h b _ w frs t0 BI) as (h3 & w3 & E3 & I3 & U3).
    exists h3, (Builder (b_dawg b) (b_prev b) (Some w3)), (d_root (b_dawg b) :: w_floating w3). split.
    { exists B. intros fuel Hf. unfold finished. rewrite E by auto. cbn. rewrite E3 by auto. reflexivity. }
    split; [exact (inv_new _ _ _ _ _ _ _ I3)|]. specialize (E3 B (le_n _)). unfold finish in E3.
    rewrite (bi_work _ _ _ _ _ _ _ _ BI) in E3. cbn [deref rbind] in E3. unfold minimize in E3.
    destruct (minimize_loop (length (w_unchecked w) - 0) B h w) as [[h4 w4]| |] eqn:Em; try discriminate. cbn [rbind] in E3.
    injection E3 as _ <-. rewrite <- (minimize_loop_floating _ _ _ _ _ _ Em) in S. cbn [length]. congruence.
Qed.
Print Assumptions C93_building.

(** When sorted_dawg returns, there is one node for the root and one for every set
    of endings that the prefixes of the terms have. *)
Theorem C93_built : forall alloc h0 terms h b, allocator alloc ->
  runs_to (fun fuel => sorted_dawg fuel alloc h0 terms) (h, Some b) ->
  exists reps nodes, representatives terms reps /\ new_nodes h0 h nodes /\ length nodes = S (length reps).
Proof.
  intros alloc h0 ts h b A R. apply sorted_dawg_built in R; [|exact A]. destruct R as (As & Bu & _).
  destruct (c_finished_ok alloc h0 ts A) as (flags & kept & h' & b' & calls & G & _ & _ & _ & Rs & ND & HR & _).
  destruct (greedy_det _ _ _ _ G _ _ (greedy_sorted [] ts ltac:(apply ascending_nil_cons; exact As))) as [_ ->].
  destruct (representatives_exist ts Rs ND HR) as (reps & X).
  destruct (built_counts h0 h (b_dawg b) ts reps Bu X) as (ps & N & I & L). exists reps, ps. split; [exact X|]. split; [split|]; auto.
Qed.
Print Assumptions C93_built.

(** {a, ab, cab, cb} has seven prefixes: seven nodes until sorted_dawg cleans up,
    then five. *)
Example C93_case :
  (exists h b, under_construction 30 bump [] some_terms = Ok ([true; true; true; true], h, b) /\ length (live h) = 7) /\
  (exists h b, sorted_dawg 30 bump [] some_terms = Ok (h, Some b) /\ length (live h) = 5).
Proof. split; eexists _, _; run; vm_compute; reflexivity. Qed.

(** All strings of length [n] over two letters, in ascending order. *)
Fixpoint binary (n : nat) : list str :=
  match n with
  | O => [[]]
  | S n' => map (cons (ascii_of_nat 97)) (binary n') ++ map (cons (ascii_of_nat 98)) (binary n')
  end.

Definition ab (c : char) : Prop := c = ascii_of_nat 97 \/ c = ascii_of_nat 98.

Lemma in_binary n : forall w, In w (binary n) <-> length w = n /\ Forall ab w.
Proof.
  induction n as [|n IH]; intros w; cbn [binary].
  - cbn. split; [intros [<-|[]]; auto|]. intros [L _]. destruct w; [auto|discriminate].
  - rewrite in_app_iff, !in_map_iff. split.
    + intros [(v & <- & J)|(v & <- & J)]; apply IH in J; destruct J as [<- F]; (split; [reflexivity|]); constructor; auto; unfold ab; auto.
    + intros [L F]. destruct w as [|c w]; [discriminate|]. injection L as L. inversion F as [|? ? [->| ->] F']; subst; [left|right];
        exists w; split; auto; apply IH; auto.
Qed.

Lemma lex_cons c u v : lex_lt (c :: u) (c :: v) <-> lex_lt u v.
Proof.
  split; [|intros; apply lex_tail; auto]. intros H. inversion H; subst; [lia|assumption].
Qed.

Lemma binary_ascending n : ascending (binary n).
Proof.
  assert (X : StronglySorted lex_lt (binary n)).
  { induction n as [|n IH]; cbn [binary]; [repeat constructor|].
    assert (M : forall c, StronglySorted lex_lt (map (cons c) (binary n))).
    { intros c. induction IH as [|a l S IHl F]; cbn; constructor; auto. apply Forall_forall. intros y J. apply in_map_iff in J.
      destruct J as (z & <- & J). apply lex_cons. rewrite Forall_forall in F. apply F, J. }
    pose proof (M (ascii_of_nat 97)) as M1. pose proof (M (ascii_of_nat 98)) as M2.
    assert (C : forall a b, In a (map (cons (ascii_of_nat 97)) (binary n)) -> In b (map (cons (ascii_of_nat 98)) (binary n)) -> lex_lt a b).
    { intros a b Ja Jb. apply in_map_iff in Ja. apply in_map_iff in Jb. destruct Ja as (a' & <- & _). destruct Jb as (b' & <- & _).
      apply lex_head. reflexivity. }
    revert M2 C. generalize (map (cons (ascii_of_nat 98)) (binary n)). intros l2 M2 C. clear IH M.
    induction M1 as [|a l S IHl F]; cbn; [exact M2|]. constructor.
    - apply IHl. intros x y Jx Jy. apply C; [now right|exact Jy].
    - apply Forall_app. split; [exact F|]. apply Forall_forall. intros y Jy. apply C; [now left|exact Jy]. }
  clear -X. unfold ascending. induction X as [|a l S IH F]; [constructor|]. destruct l as [|b l]; constructor; auto.
  inversion F; subst. right. assumption.
Qed.

Fixpoint binary_prefixes (n : nat) : list str :=
  [] :: match n with
        | O => []
        | S n' => map (cons (ascii_of_nat 97)) (binary_prefixes n') ++ map (cons (ascii_of_nat 98)) (binary_prefixes n')
        end.

Lemma in_binary_prefixes n : forall w, In w (binary_prefixes n) <-> length w <= n /\ Forall ab w.
Proof.
  induction n as [|n IH]; intros w; cbn [binary_prefixes In].
  - split; [intros [<-|[]]; auto|]. intros [L _]. destruct w; [auto|cbn in L; lia].
  - rewrite in_app_iff, !in_map_iff. split.
    + intros [<-|[(v & <- & J)|(v & <- & J)]]; [split; [cbn; lia|constructor]| |]; apply IH in J; destruct J as [L F];
        (split; [cbn; lia|]); constructor; auto; unfold ab; auto.
    + intros [L F]. destruct w as [|c w]; [auto|]. right. cbn in L. inversion F as [|? ? [->| ->] F']; subst; [left|right];
        exists w; split; auto; apply IH; split; auto; lia.
Qed.

Lemma binary_prefixes_listed n : lists_prefixes (binary n) (binary_prefixes n) /\ S (length (binary_prefixes n)) = 2 ^ (n + 1).
Proof.
  split; [split|].
  - induction n as [|n IH]; cbn [binary_prefixes]; constructor; try (cbn; tauto); [constructor| |].
    + rewrite in_app_iff, !in_map_iff. intros [(v & X & _)|(v & X & _)]; discriminate X.
    + assert (D : forall l1 l2 : list str, NoDup l1 -> NoDup l2 -> (forall x, In x l1 -> ~ In x l2) -> NoDup (l1 ++ l2)).
      { clear. induction l1 as [|a l1 IH]; cbn; intros l2 N1 N2 D; [exact N2|]. inversion N1; subst. constructor.
        - rewrite in_app_iff. intros [J|J]; [contradiction|]. exact (D a (or_introl eq_refl) J).
        - apply IH; auto. }
      assert (M : forall c, NoDup (map (cons c) (binary_prefixes n))).
      { intros c. clear D. induction IH as [|a l N _ IHl]; cbn; constructor; [|exact IHl]. rewrite in_map_iff. intros (x & X & J).
        injection X as ->. contradiction. }
      apply D; auto. intros x J1 J2. apply in_map_iff in J1. apply in_map_iff in J2. destruct J1 as (u & <- & _), J2 as (v & X & _).
      discriminate X.
  - intros w. rewrite in_binary_prefixes. split.
    + intros [L F]. right. exists (repeat (ascii_of_nat 97) (n - length w)). apply in_binary. split.
      * rewrite app_length, repeat_length. lia.
      * apply Forall_app. split; [exact F|]. apply Forall_forall. intros x J. apply repeat_spec in J. left. exact J.
    + intros [->|(v & J)]; [split; [cbn; lia|constructor]|]. apply in_binary in J. destruct J as [L F]. rewrite app_length in L. apply Forall_app in F. split; [lia|tauto].
  - induction n as [|n IH]; [reflexivity|]. cbn [binary_prefixes length]. rewrite app_length, !map_length.
    cbn [Nat.add Nat.pow]. lia.
Qed.

Lemma binary_representatives n : representatives (binary n) (map (repeat (ascii_of_nat 97)) (seq 1 n)).
Proof.
  assert (SE : forall u v, Forall ab u -> Forall ab v -> length u = length v -> same_endings (binary n) u v).
  { intros u v Fu Fv L x. rewrite !in_binary, !app_length, !Forall_app, L. tauto. }
  assert (Fr : forall k, Forall ab (repeat (ascii_of_nat 97) k)).
  { intros k. apply Forall_forall. intros x J. apply repeat_spec in J. left. exact J. }
  split; [|split; [|split]].
  - apply FinFun.Injective_map_NoDup; [|apply seq_NoDup]. intros i j E. apply (f_equal (@length _)) in E.
    rewrite !repeat_length in E. exact E.
  - intros r J. apply in_map_iff in J. destruct J as (k & <- & J). apply in_seq in J. split; [destruct k; [lia|discriminate]|].
    exists (repeat (ascii_of_nat 97) (n - k)). apply in_binary. split; [rewrite app_length, !repeat_length; lia|]. apply Forall_app. auto.
  - intros r s Jr Js E. apply in_map_iff in Jr. apply in_map_iff in Js. destruct Jr as (i & <- & Ji), Js as (j & <- & Jj).
    apply in_seq in Ji. specialize (E (repeat (ascii_of_nat 97) (n - i))). rewrite !in_binary, !app_length, !repeat_length, !Forall_app in E.
    assert (i = j) as ->; [|reflexivity]. assert (X : i + (n - i) = n) by lia. destruct E as [E _].
    destruct (E (conj X (conj (Fr i) (Fr _)))) as [Y _]. lia.
  - intros w u Nw J. apply in_binary in J. destruct J as [L F]. rewrite app_length in L. apply Forall_app in F. destruct F as [F _].
    exists (repeat (ascii_of_nat 97) (length w)). split.
    + apply in_map_iff. exists (length w). split; [reflexivity|]. apply in_seq. destruct w; [contradiction|cbn in *; lia].
    + apply SE; auto. rewrite repeat_length. reflexivity.
Qed.

(** How far apart the two counts can be: the dictionary of all strings of length
    [n] over two letters has n + 1 nodes, but while it is built there are
    2^(n + 1) - 1 of them. *)
Theorem C93_far_apart : forall alloc h0 n, allocator alloc ->
  (exists flags h b nodes, runs_to (fun fuel => finished fuel alloc h0 (binary n)) (flags, h, b) /\
     new_nodes h0 h nodes /\ S (length nodes) = 2 ^ (n + 1)) /\
     (exists h b nodes, runs_to (fun fuel => sorted_dawg fuel alloc h0 (binary n)) (h, Some b) /\
     new_nodes h0 h nodes /\ length nodes = n + 1).
Proof.
  intros alloc h0 n A. pose proof (binary_ascending n) as As. split.
  - destruct (C93_building alloc h0 (binary n) A) as (flags & kept & ps & G & P & _ & h & b & nodes & R & N & L).
    exists flags, h, b, nodes. split; [exact R|]. split; [exact N|].
    destruct (greedy_det _ _ _ _ G _ _ (greedy_sorted [] (binary n) ltac:(apply ascending_nil_cons; exact As))) as [_ ->].
    destruct (binary_prefixes_listed n) as [Q Lq]. rewrite L, <- Lq. f_equal.
    apply Permutation_length, NoDup_Permutation; [apply P|apply Q|]. intros x. rewrite (proj2 P), (proj2 Q). reflexivity.
  - destruct (sorted_dawg_ok alloc h0 (binary n) A As) as (h & b & R & Bu & _).
    destruct (built_counts h0 h (b_dawg b) _ _ Bu (binary_representatives n)) as (ps & N & I & L).
    exists h, b, ps. split; [exact R|]. split; [split; auto|]. rewrite L, map_length, seq_length. lia.
Qed.
Print Assumptions C93_far_apart.

Example C93_far_apart_case :
  (exists h b, finished 30 bump [] (binary 3) = Ok (repeat true 8, h, b) /\ length (live h) = 15) /\
     (exists h b, sorted_dawg 30 bump [] (binary 3) = Ok (h, Some b) /\ length (live h) = 4).
Proof. split; eexists _, _; run; vm_compute; reflexivity. Qed.
