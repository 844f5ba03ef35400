(** * DepthProofs: how deep the recursive functions nest. *)
From Coq Require Import Sorting.Permutation.
From Verif Require Import Base Spec ModelDistance AlignProofs DistProofs ModelTransducer ModelDawg SpecDawg TreeProofs HeapProofs
  ModelState ModelMemory ModelIterator SpecState PointerProofs.
Local Open Scope nat_scope.

(** ** between *)
Lemma run_bind {A B} (p : prog A) (f : A -> prog B) : forall m,
  run (pbind p f) m = match run p m with Ok (x, m') => run (f x) m' | UB => UB | OOF => OOF end.
Proof. induction p; intros m; cbn; auto. Qed.

Lemma try_calls_same k (r1 r2 : str -> str -> prog nat) : forall cs mo,
  (forall p q m, In (p, q) cs -> run (r1 p q) m = run (r2 p q) m /\ run (r1 p q) m <> OOF) ->
  (cs <> [] \/ mo <> None) -> forall m,
  run (try_calls r1 k cs mo) m = run (try_calls r2 k cs mo) m /\ run (try_calls r1 k cs mo) m <> OOF.
Proof.
  induction cs as [|[p q] cs IH]; intros mo H D m; cbn [try_calls].
  - destruct mo; [split; [reflexivity|discriminate]|destruct D; congruence].
  - rewrite !run_bind. destruct (H p q m) as [E N]; [now left|]. rewrite <- E.
    destruct (run (r1 p q) m) as [[d m']| |]; [|split; [reflexivity|discriminate]|congruence].
    destruct (0 =? d); [split; [reflexivity|discriminate]|].
    apply IH; [intros; apply H; now right|right; discriminate].
Qed.

Lemma between_depth alg : forall f g v w m, 1 <= f -> length v + length w <= f -> 1 <= g -> length v + length w <= g ->
  run (between_fuel f alg v w) m = run (between_fuel g alg v w) m /\ run (between_fuel f alg v w) m <> OOF.
Proof.
  induction f as [|f IH]; intros g v w m F1 F2 G1 G2; [lia|]. destruct g as [|g]; [lia|]. cbn [between_fuel run].
  destruct (memo_get m (symmetric_pair v w)) as [d|]; [split; [reflexivity|discriminate]|].
  destruct v as [|a s]; [split; [reflexivity|discriminate]|]. destruct w as [|b t]; [split; [reflexivity|discriminate]|].
  destruct (discard a s b t) as [[[c x] d] y] eqn:E. destruct (discard_spec _ _ _ _ _ _ _ _ E) as (_ & _ & L).
  destruct (ceqb c d); [destruct x; split; try reflexivity; discriminate|].
  apply try_calls_same; [|left; apply calls_length].
  intros p q m' I. apply calls_upper in I. destruct I as [_ I]. cbn [length] in *. apply IH; lia.
Qed.

Lemma pair_nonempty u v : u <> [] -> v <> [] -> fst (symmetric_pair u v) <> [] /\ snd (symmetric_pair u v) <> [].
Proof. unfold symmetric_pair. destruct (str_ltb u v); cbn; auto. Qed.

Lemma pair_empty w : fst (symmetric_pair [] w) = [] \/ snd (symmetric_pair [] w) = [].
Proof. unfold symmetric_pair. destruct (str_ltb [] w); cbn; auto. Qed.

Lemma get_set_other m u v w d : u <> [] -> v <> [] ->
  memo_get (memo_set m (symmetric_pair [] w) d) (symmetric_pair u v) = memo_get m (symmetric_pair u v).
Proof.
  intros U V. unfold memo_set. cbn [memo_get]. destruct (key_eqb (symmetric_pair [] w) (symmetric_pair u v)) eqn:E; auto.
  apply key_eqb_eq in E. destruct (pair_nonempty u v U V). rewrite <- E in *. destruct (pair_empty w); contradiction.
Qed.

Lemma discard_unlike a b s t : a <> b -> discard a s b t = (a, s, b, t).
Proof.
  intros N. destruct s as [|a' s]; cbn; auto. destruct t as [|b' t]; auto.
  destruct (ceqb a b) eqn:E; auto. apply ceqb_true in E. contradiction.
Qed.

Definition fresh_for (a b : char) (m : memo) : Prop :=
  forall i j, memo_get m (symmetric_pair (repeat a (S i)) (repeat b (S j))) = None.

Lemma run_call (r : str -> str -> prog nat) k p q cs mo m :
  run (r p q) m = OOF -> run (try_calls r k ((p, q) :: cs) mo) m = OOF.
Proof. intros E. cbn [try_calls]. now rewrite run_bind, E. Qed.

Lemma deep_one alg a b : a <> b -> forall n f m, f <= n -> memo_ok alg m -> fresh_for a b m ->
  run (between_fuel f alg [a] (repeat b n)) m = OOF.
Proof.
  intros N. induction n as [|n IH]; intros f m F M Fr; (destruct f as [|f]; [reflexivity|]); [lia|].
  pose proof (Fr 0 n) as Z. cbn [repeat] in Z |- *. cbn [between_fuel run]. rewrite Z.
  rewrite discard_unlike by auto. destruct (ceqb a b) eqn:E; [apply ceqb_true in E; contradiction|].
  unfold recursive_calls. cbn [app]. destruct f as [|f]; [apply run_call; reflexivity|].
  cbn [try_calls]. rewrite run_bind.
  assert (X : exists m', run (between_fuel (S f) alg [] (b :: repeat b n)) m = Ok (S n, m') /\ memo_ok alg m' /\ fresh_for a b m').
  { cbn [between_fuel run]. destruct (memo_get m (symmetric_pair [] (b :: repeat b n))) as [d|] eqn:G.
    - exists m. split; auto. cbn [run]. apply M in G. rewrite kdst_pair, dst_nil_l in G. cbn [length] in G. rewrite repeat_length in G. now subst.
    - exists (memo_set m (symmetric_pair [] (b :: repeat b n)) (S n)). cbn [return_set run length]. rewrite repeat_length.
      split; [reflexivity|]. split.
      + apply memo_ok_set; auto. rewrite kdst_pair, dst_nil_l. cbn [length]. now rewrite repeat_length.
      + intros i j. rewrite get_set_other by discriminate. apply Fr. }
  destruct X as (m' & -> & M' & Fr'). cbn [Nat.eqb]. rewrite run_bind, (IH (S f) m') by (auto; lia). reflexivity.
Qed.

Lemma deep alg a b n : a <> b -> 1 <= n -> forall i f m, f < S i + n -> memo_ok alg m -> fresh_for a b m ->
  run (between_fuel f alg (repeat a (S i)) (repeat b n)) m = OOF.
Proof.
  intros N Hn. induction i as [|i IH]; intros f m F M Fr; [apply deep_one; auto; lia|].
  destruct f as [|f]; [reflexivity|]. destruct n as [|n]; [lia|].
  pose proof (Fr (S i) n) as Z. cbn [repeat] in Z |- *. cbn [between_fuel run]. rewrite Z. rewrite discard_unlike by auto. destruct (ceqb a b) eqn:E; [apply ceqb_true in E; contradiction|].
  unfold recursive_calls. cbn [app]. apply run_call. apply (IH f m); auto. lia.
Qed.

(** ** Hash and equality of nodes *)
Lemma hash_deep : forall fuel h n t, nunf h n t -> fuel < height t -> node_hash fuel h n = OOF.
Proof.
  induction fuel as [|fuel IH]; intros h n t U H; [reflexivity|].
  rewrite node_hash_S. destruct t as [f ts]. destruct U as (_ & U & _). cbn in U.
  assert (D : exists e, In e ts /\ fuel < height (snd e)).
  { clear -H. cbn in H. induction ts as [|e ts IH]; cbn in H; [lia|].
    destruct (Nat.lt_ge_cases fuel (height (snd e))); [exists e; split; [now left|auto]|].
    destruct IH as (e' & I & L); [cbn; lia|]. exists e'. split; [now right|auto]. }
  assert (G : forall code, hash_each fuel h (nedges n) code = OOF).
  { clear H. induction U as [|c q t es ts U Us IHU]; [destruct D as (? & [] & _)|]. intros code. cbn [hash_each].
    destruct (unf_read _ _ _ U) as (x & Rx & Gx & Nx). rewrite Rx. cbn [rbind].
    destruct (Nat.le_gt_cases (height t) fuel) as [L|L].
    - rewrite (node_hash_ok fuel h x t Nx L). cbn [rbind]. apply IHU. destruct D as (e & [<-|I] & Le); [cbn in Le; lia|eauto].
    - rewrite (IH h x t Nx L). reflexivity. }
  now rewrite G.
Qed.

Lemma eq_deep : forall fuel h a b t, nunf h a t -> nunf h b t -> fuel < height t -> node_eq fuel h a b = OOF.
Proof.
  induction fuel as [|fuel IH]; intros h a b t A B H; [reflexivity|].
  rewrite node_eq_S. destruct t as [f ts]. destruct A as (Sa & Ua & Fa), B as (Sb & Ub & Fb). cbn in Ua, Fa, Ub, Fb.
  replace (nfin b) with (nfin a) by congruence. rewrite Bool.eqb_reflx. cbn [negb].
  assert (L : length (nedges a) = length (nedges b)) by (rewrite (unfs_length _ _ _ Ua), (unfs_length _ _ _ Ub); reflexivity).
  rewrite L, Nat.eqb_refl. cbn [negb].
  assert (D : exists e, In e ts /\ fuel < height (snd e)).
  { clear -H. cbn in H. induction ts as [|e ts IH]; cbn in H; [lia|].
    destruct (Nat.lt_ge_cases fuel (height (snd e))); [exists e; split; [now left|auto]|].
    destruct IH as (e' & I & L); [cbn; lia|]. exists e'. split; [now right|auto]. }
  assert (Tb : forall c t, In (c, t) ts -> exists q, edge_get (nedges b) c = Some q /\ unf h q t).
  { intros c t I. pose proof (unfs_get _ _ _ c Ub) as X. rewrite (edge_In_get _ ts c t) in X by (auto; eapply unfs_sorted; eauto).
    destruct (edge_get (nedges b) c) as [q|]; [|discriminate]. destruct X as (ty & Gy & Uy). injection Gy as <-. eauto. }
  clear L H Ub Sa. revert D Tb. induction Ua as [|c q t es ts' U Us IHU]; intros D Tb; [destruct D as (? & [] & _)|]. cbn [eq_each].
  destruct (Tb c t (or_introl eq_refl)) as (r & Gr & Ur). unfold transition. rewrite Gr.
  destruct (N.eqb_spec r null) as [->|Nr]; [exfalso; apply unf_inv in Ur; destruct Ur as (? & Z & _); now apply Z|].
  destruct (unf_read _ _ _ U) as (x & Rx & _ & Nx), (unf_read _ _ _ Ur) as (y & Ry & _ & Ny). rewrite Rx, Ry. cbn [rbind].
  destruct (Nat.le_gt_cases (height t) fuel) as [L|L].
  - destruct (node_eq_ok fuel h x y t t Nx Ny L) as (e & -> & He). assert (e = true) as -> by now apply He. cbn [rbind].
    apply IHU; [destruct D as (e & [<-|I] & Le); [cbn in Le; lia|eauto]|]. intros c' t' I. apply Tb. now right.
  - rewrite (IH h x y t Nx Ny L). reflexivity.
Qed.

Lemma height_tin : forall w t, tin t w = true -> length w < height t.
Proof.
  induction w as [|c w IH]; intros [f es] H; [apply height_pos|]. cbn [tin tedges length] in *.
  destruct (edge_get es c) as [t|] eqn:E; [|discriminate]. apply IH in H. apply edge_get_In, (height_edge _ f) in E. lia.
Qed.

(** ** State::sort *)
Lemma halves_length l lo up : halves l = (lo, up) -> length lo = (length l + 1) / 2 /\ length lo + length up = length l.
Proof.
  intros E. pose proof (f_equal fst E) as E1. pose proof (f_equal snd E) as E2. cbn [fst snd] in E1, E2.
  change (fst (halves l)) with (firstn ((length l + 1) / 2) l) in E1. change (snd (halves l)) with (skipn ((length l + 1) / 2) l) in E2.
  subst lo up. rewrite firstn_length, skipn_length.
  assert (H : (length l + 1) / 2 <= length l).
  { destruct l as [|a l]; [cbn; lia|]. apply Nat.div_le_upper_bound; [lia|]. cbn [length]. lia. }
  rewrite Nat.min_l by exact H. split; [reflexivity|lia].
Qed.

Lemma merge_lists_length cmp : forall lo up, length (merge_lists cmp lo up) = length lo + length up.
Proof.
  induction lo as [|a lo IH]; [intros [|b up]; reflexivity|]. induction up as [|b up IHu]; [cbn; lia|].
  cbn [merge_lists]. destruct (cmp a b <? 1)%Z; cbn [length].
  - rewrite IH. cbn [length]. lia.
  - cbn [merge_lists] in IHu. rewrite IHu. cbn [length]. lia.
Qed.

Lemma sort_depth cmp : forall fuel l, (exists s, merge_sort fuel cmp l = Ok s /\ length s = length l) /\ length l <= 2 ^ fuel \/
  merge_sort fuel cmp l = OOF /\ 2 ^ fuel < length l.
Proof.
  induction fuel as [|fuel IH]; intros l.
  - destruct l as [|a [|b l]]; cbn; [left; split; eauto..|right; split; [reflexivity|lia]].
  - destruct l as [|a [|b l]]; [left; split; [eexists; split; reflexivity|cbn; lia]|left; split; [eexists; split; reflexivity|]|].
    + cbn [length]. pose proof (Nat.pow_nonzero 2 (S fuel)). lia.
    + cbn [merge_sort]. set (x := a :: b :: l). destruct (halves x) as [lo up] eqn:E.
      destruct (halves_length _ _ _ E) as [L1 L2]. pose proof (Nat.div_mod (length x + 1) 2) as Dm. pose proof (Nat.mod_upper_bound (length x + 1) 2).
      rewrite Nat.pow_succ_r'. rewrite <- L1 in Dm.
      destruct (IH lo) as [[(sl & El & Ll) Bl]|[El Bl]]; rewrite El; cbn [rbind].
      * destruct (IH up) as [[(su & Eu & Lu) Bu]|[Eu Bu]]; rewrite Eu; cbn [rbind].
        -- left. split; [|lia]. eexists. split; [reflexivity|]. rewrite merge_lists_length. lia.
        -- exfalso. lia.
      * right. split; [reflexivity|lia].
Qed.

(** ** operator<< of Prefix and Intersection *)
Lemma prefix_depth m : forall enough p w, pcell_str enough m p = Ok w ->
  forall fuel, (length w < fuel -> pcell_str fuel m p = Ok w) /\ (fuel <= length w -> pcell_str fuel m p = OOF).
Proof.
  induction enough as [|en IH]; intros p w E fuel; [discriminate|]. cbn [pcell_str] in E.
  destruct fuel as [|fuel]; [split; [lia|reflexivity]|]. cbn [pcell_str].
  destruct (mread m p) as [x| |]; cbn [rbind] in *; try discriminate.
  destruct (negb (pc_parent x =? null)%N); [|injection E as <-; split; cbn; [reflexivity|lia]].
  destruct (pcell_str en m (pc_parent x)) as [s| |] eqn:Es; cbn [rbind] in *; try discriminate. injection E as <-.
  destruct (IH _ _ Es fuel) as [H1 H2]. rewrite app_length. cbn [length].
  split; intros F; [rewrite H1 by lia|rewrite H2 by lia]; reflexivity.
Qed.

Lemma intersection_depth m : forall enough p w, intersection_str enough m p = Ok w ->
  forall fuel, (length w < fuel -> intersection_str fuel m p = Ok w) /\ (fuel <= length w -> intersection_str fuel m p = OOF).
Proof.
  induction enough as [|en IH]; intros p w E fuel; [discriminate|]. cbn [intersection_str] in E.
  destruct fuel as [|fuel]; [split; [lia|reflexivity]|]. cbn [intersection_str].
  destruct (mread m p) as [x| |]; cbn [rbind] in *; try discriminate.
  destruct (negb (ic_parent x =? null)%N); [|injection E as <-; split; cbn; [reflexivity|lia]].
  destruct (intersection_str en m (ic_parent x)) as [s| |] eqn:Es; cbn [rbind] in *; try discriminate. injection E as <-.
  destruct (IH _ _ Es fuel) as [H1 H2]. rewrite app_length. cbn [length].
  split; intros F; [rewrite H1 by lia|rewrite H2 by lia]; reflexivity.
Qed.

(** ** ~Position *)
Lemma delete_deep m : forall l p q fuel, segment m p l q -> fuel <= length l -> delete_position fuel m p = OOF.
Proof.
  induction l as [|[a x] l IH]; intros p q fuel Sg F; (destruct fuel as [|fuel]; [reflexivity|]); [cbn in F; lia|].
  cbn [segment] in Sg. destruct Sg as (-> & N & n & G & Sg). cbn [delete_position]. destruct (N.eqb_spec a null); [contradiction|].
  rewrite (get_next_ok N G). cbn [rbind c_next]. rewrite (IH n q fuel Sg) by (cbn in F; lia). reflexivity.
Qed.

Lemma sort_more cmp : forall f g l s, f <= g -> merge_sort f cmp l = Ok s -> merge_sort g cmp l = Ok s.
Proof.
  induction f as [|f IH]; intros g l s L E; destruct l as [|a [|b l]]; try (destruct g; exact E); [discriminate|].
  destruct g as [|g]; [lia|]. cbn [merge_sort] in *. destruct (halves (a :: b :: l)) as [lo up].
  destruct (merge_sort f cmp lo) as [x| |] eqn:E1; try discriminate. rewrite (IH g _ _ ltac:(lia) E1). cbn [rbind] in *.
  destruct (merge_sort f cmp up) as [y| |] eqn:E2; try discriminate. now rewrite (IH g _ _ ltac:(lia) E2).
Qed.
