(** * LimitProofs: strings too long for a loop counter of type int. *)
From Verif Require Import Base Spec SpecLimits ModelTransducer ModelDawg ModelQuery SpecDawg SpecQuery
  TreeProofs HeapProofs TransProofs QueryFacts.
Local Open Scope nat_scope.

(** ** contains, whatever the length *)
Fixpoint tlook (i : N) (t : tree) (w : str) : res bool :=
  match w with
  | [] => Ok (tfin t)
  | c :: w' =>
      if (i =? 2147483647)%N then UB
      else match edge_get (tedges t) c with
           | Some t' => tlook (i + 1)%N t' w'
           | None => Ok false
           end
  end.

Lemma contains_loop_look h : forall w p t i, unf h p t ->
  (do q <- contains_loop h p i w; if N.eqb q null then Ok false else do n <- read h q; Ok (nfin n)) = tlook i t w.
Proof.
  induction w as [|c w IH]; intros p t i U; cbn [contains_loop tlook].
  - destruct (unf_read _ _ _ U) as (n & R & G & Sn & Un & Fn).
    pose proof (unf_inv _ _ _ U) as (_ & NN & _). apply N.eqb_neq in NN. cbn [rbind]. rewrite NN, R. cbn [rbind]. now rewrite Fn.
  - destruct (unf_read _ _ _ U) as (n & R & G & Sn & Un & Fn).
    pose proof (unf_inv _ _ _ U) as (_ & NN & _). apply N.eqb_neq in NN. rewrite NN, R. cbn [rbind].
    destruct (N.eqb_spec i 2147483647); [reflexivity|].
    unfold transition. pose proof (unfs_get _ _ _ c Un) as X.
    destruct (edge_get (nedges n) c) as [q|].
    + destruct X as (t' & Gt & U'). rewrite Gt. now apply IH.
    + rewrite X. destruct w; reflexivity.
Qed.

Lemma contains_look h d t w : unf h (d_root d) t -> contains h d w = tlook 0 t w.
Proof. intros U. unfold contains. now apply contains_loop_look. Qed.

Lemma tlook_long : forall p t i r, r <> [] -> (i + N.of_nat (length p) = 2147483647)%N -> useful t ->
  ((exists u, tin t (p ++ u) = true) -> tlook i t (p ++ r) = UB) /\
  (p <> [] -> ~ (exists u, tin t (p ++ u) = true) -> tlook i t (p ++ r) = Ok false).
Proof.
  induction p as [|c p IH]; intros t i r Nr L Us; cbn [app length tlook tin] in *.
  - split; [|congruence]. intros _. destruct r as [|c r]; [congruence|]. cbn [tlook].
    destruct (N.eqb_spec i 2147483647); [reflexivity|lia].
  - destruct (N.eqb_spec i 2147483647); [lia|].
    destruct (edge_get (tedges t) c) as [t'|] eqn:E.
    + assert (I : In (c, t') (tedges t)).
      { clear - E. destruct t as [f es]. cbn [tedges] in *. induction es as [|[d x] es IH]; cbn in E; [discriminate|].
        destruct (ceqb c d) eqn:Ec; [apply ceqb_true in Ec; injection E as <-; subst; now left|right; auto]. }
      destruct t as [f es]. inversion Us as [? ? Ne Us']; subst. cbn [tedges] in I. rewrite Forall_forall in Ne, Us'.
      pose proof (Ne _ I) as Ne1. pose proof (Us' _ I) as Us1. cbn [snd] in Ne1, Us1.
      destruct (IH t' (i + 1)%N r Nr ltac:(lia) Us1) as (A & B). split; auto. intros _ H. apply B; auto.
      intros ->. apply H. exact Ne1.
    + split; [intros (u & H); discriminate|reflexivity].
Qed.

(** ** The first transition of a query *)
Lemma window_too_long x n : (INT_MAX < N.of_nat (length x) <= SIZE_MAX)%N -> (n <= SIZE_MAX)%N -> (INT_MAX < 2 * n + 1)%N ->
  forall c, characteristic_vector c x (query_k (query_a n) (N.of_nat (length x)) 0) 0 = UB.
Proof.
  intros Lx Ln L c. unfold characteristic_vector.
  assert (K : (INT_MAX < query_k (query_a n) (N.of_nat (length x)) 0)%N).
  { unfold query_k, query_a. rewrite wsub_small by (unfold W, SIZE_MAX in *; lia).
    change (N.shiftr (SIZE_MAX - 1) 1) with 9223372036854775807%N. change INT_MAX with 2147483647%N in *.
    destruct (N.ltb_spec n 9223372036854775807) as [M|M].
    - rewrite N.shiftl_mul_pow2. change (2 ^ 1)%N with 2%N.
      rewrite N.mod_small by (unfold W; lia). rewrite wadd_small by (unfold W; lia).
      match goal with |- context [(?a <? ?b)%N] => destruct (N.ltb_spec a b) end; lia.
    - match goal with |- context [(?a <? ?b)%N] => destruct (N.ltb_spec a b) end;
        unfold SIZE_MAX in *; lia. }
  destruct (N.ltb_spec INT_MAX (query_k (query_a n) (N.of_nat (length x)) 0)); [reflexivity|lia].
Qed.
