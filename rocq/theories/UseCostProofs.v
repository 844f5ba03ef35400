(** * UseCostProofs: what comparing and saving dictionaries costs. *)
From Coq Require Import Sorting.Sorted Sorting.Permutation.
From Verif Require Import Base Spec ModelHash ModelDawg ModelSerial ModelUseCost SpecDawg SpecCost SpecUseCost TreeProofs HeapProofs BuildProofs DawgProofs
  SerialProofs DestroyProofs BuildCostProofs.
Local Open Scope nat_scope.

(** ** Comparing: the same on trees *)
Definition tlog_each (tlog : tree -> tree -> bool * list str) (eb : list (char * tree)) :=
  fix each (es : list (char * tree)) : bool * list str :=
    match es with
    | [] => (true, [])
    | (c, t) :: es' =>
        match edge_get eb c with
        | None => (false, [])
        | Some u =>
            let (r, calls) := tlog t u in
            if r then let (r', more) := each es' in (r', map (cons c) calls ++ more) else (false, map (cons c) calls)
        end
    end.

Fixpoint tlog (ta tb : tree) {struct ta} : bool * list str :=
  match ta with
  | T fa ea =>
      if negb (Bool.eqb fa (tfin tb)) then (false, [[]])
      else if negb (Nat.eqb (length ea) (length (tedges tb))) then (false, [[]])
      else let (r, calls) := tlog_each tlog (tedges tb) ea in (r, [] :: calls)
  end.

Definition c_eq_each (fuel : nat) (h : heap) (b : node) :=
  fix each (es : list (char * ptr)) : res (bool * list str) :=
    match es with
    | [] => Ok (true, [])
    | (c, expected) :: es' =>
        let actual := transition b c in
        if N.eqb actual null then Ok (false, [])
        else
          do x <- read h expected;
          do y <- read h actual;
          do (e, calls) <- c_node_eq fuel h x y;
          if e then
            do (r, more) <- each es';
            Ok (r, map (cons c) calls ++ more)
          else Ok (false, map (cons c) calls)
    end.

Lemma c_node_eq_S : forall fuel h a b, c_node_eq (S fuel) h a b =
  if negb (Bool.eqb (nfin a) (nfin b)) then Ok (false, [[]])
  else if negb (Nat.eqb (length (nedges a)) (length (nedges b))) then Ok (false, [[]])
  else do (r, calls) <- c_eq_each fuel h b (nedges a); Ok (r, [] :: calls).
Proof. reflexivity. Qed.

Lemma c_node_eq_ok : forall fuel h a b ta tb, nunf h a ta -> nunf h b tb -> height ta <= fuel ->
  c_node_eq fuel h a b = Ok (tlog ta tb).
Proof.
  induction fuel as [|fuel IH]; intros h a b ta tb A B H.
  { pose proof (height_pos ta). lia. }
  rewrite c_node_eq_S. destruct ta as [fa tsa], tb as [fb tsb]. destruct A as (Sa & Ua & Fa), B as (Sb & Ub & Fb).
  cbn in Ua, Fa, Ub, Fb. subst fa fb. cbn [tlog tfin tedges].
  destruct (Bool.eqb (nfin a) (nfin b)); [|reflexivity]. cbn [negb].
  rewrite (unfs_length _ _ _ Ua), (unfs_length _ _ _ Ub). destruct (Nat.eqb _ _); [|reflexivity]. cbn [negb].
  assert (Hs : forall c t, In (c, t) tsa -> height t <= fuel).
  { intros c t I. apply (height_edge _ (nfin a)) in I. lia. }
  assert (G : c_eq_each fuel h b (nedges a) = Ok (tlog_each tlog tsb tsa)).
  { clear Sa H. induction Ua as [|c q t es ts U Us IHU]; [reflexivity|]. cbn [c_eq_each tlog_each].
    unfold transition. pose proof (unfs_get _ _ _ c Ub) as X. destruct (edge_get (nedges b) c) as [r|] eqn:Gb.
    - destruct X as (ty & Gy & Uy). rewrite Gy. destruct (unf_inv _ _ _ Uy) as (y & Nr & _).
      destruct (N.eqb_spec r null) as [->|_]; [now destruct Nr|].
      destruct (unf_read _ _ _ U) as (x & Rx & _ & Nx), (unf_read _ _ _ Uy) as (y' & Ry & _ & Ny). rewrite Rx, Ry. cbn [rbind].
      rewrite (IH h x y' t ty Nx Ny) by (eapply Hs; left; eauto). destruct (tlog t ty) as [[|] calls]; cbn [rbind]; [|reflexivity].
      rewrite IHU by (intros; eapply Hs; right; eauto). destruct (tlog_each tlog tsb ts) as [r' more]. reflexivity.
    - rewrite X. reflexivity. }
  rewrite G. destruct (tlog_each tlog tsb tsa). reflexivity.
Qed.

(** ** Where trees differ *)
Definition differs (ta tb : tree) (d : str) : Prop :=
  has ta d /\ (~ has tb d \/ tfin (sub ta d) <> tfin (sub tb d) \/ length (tedges (sub ta d)) <> length (tedges (sub tb d))).

(** The same for edges. *)
Definition differ_at (ea eb : list (char * tree)) (d : str) : Prop :=
  exists c t d', d = c :: d' /\ In (c, t) ea /\
    match edge_get eb c with None => has t d' | Some u => differs t u d' end.

Definition both (ea eb : list (char * tree)) (w : str) : Prop :=
  exists c t u w', w = c :: w' /\ In (c, t) ea /\ edge_get eb c = Some u /\ has t w' /\ has u w'.

Definition right_log (ta tb : tree) (r : bool) (l : list str) : Prop :=
  NoDup l /\ (r = true <-> forall d, ~ differs ta tb d) /\
  (forall w, In w l <-> has ta w /\ has tb w /\ forall d, differs ta tb d -> ~ slex_lt d w).

Lemma slex_same c u v : slex_lt (c :: u) (c :: v) <-> slex_lt u v.
Proof. split; [|apply slex_tail]. intros H. inversion H; subst; [lia|assumption]. Qed.

Lemma tlog_each_right eb : forall ea, esorted ea ->
  (forall c t u, In (c, t) ea -> edge_get eb c = Some u -> right_log t u (fst (tlog t u)) (snd (tlog t u))) ->
  let (r, l) := tlog_each tlog eb ea in
  NoDup l /\ (r = true <-> forall d, ~ differ_at ea eb d) /\
  (forall w, In w l <-> both ea eb w /\ forall d, differ_at ea eb d -> ~ slex_lt d w).
Proof.
  intros ea So. induction So as [|[c t] ea So IH F]; intros H; cbn [tlog_each].
  { split; [constructor|]. split; [split; auto; intros _ d (? & ? & ? & _ & [] & _)|]. intros w. split; [intros []|].
    intros [(? & ? & ? & ? & _ & [] & _) _]. }
  assert (Lt : forall c' t', In (c', t') ea -> (schar c < schar c')%Z).
  { intros c' t' J. rewrite Forall_forall in F. exact (F _ J). }
  destruct (edge_get eb c) as [u|] eqn:G.
  2:{ assert (Dc : differ_at ((c, t) :: ea) eb [c]).
      { exists c, t, []. split; [reflexivity|]. split; [now left|]. rewrite G. exact Logic.I. }
      split; [constructor|]. split; [split; [discriminate|]; intros X; destruct (X _ Dc)|].
      intros w. split; [intros []|]. intros [(c' & t' & u & w' & -> & [J|J] & Gu & _) N].
      - injection J as <- <-. congruence.
      - apply (N _ Dc). apply slex_head. eapply Lt; eauto. }
  pose proof (H c t u (or_introl eq_refl) G) as Hc. destruct (tlog t u) as [r calls]. cbn [fst snd] in Hc.
  destruct Hc as (Nd & Hr & Hw).
  assert (Ndc : NoDup (map (cons c) calls)).
  { apply FinFun.Injective_map_NoDup; auto. intros x y E. now injection E. }
  assert (Here : forall w, In (c :: w) (map (cons c) calls) <-> In w calls).
  { intros w. rewrite in_map_iff. split; [intros (x & E & J); injection E as ->; exact J|eauto]. }
  assert (DH : forall d, differ_at ((c, t) :: ea) eb (c :: d) <-> differs t u d).
  { intros d. split.
    - intros (c' & t' & d' & E & [J|J] & M); injection E as <- <-; [injection J as <-; now rewrite G in M|].
      apply Lt in J. lia.
    - intros D. exists c, t, d. rewrite G. split; auto. split; auto. now left. }
  assert (DT : forall d, differ_at ((c, t) :: ea) eb d <-> (exists d', d = c :: d' /\ differs t u d') \/ differ_at ea eb d).
  { intros d. split.
    - intros (c' & t' & d' & -> & [J|J] & M); [left|right].
      + injection J as <- <-. rewrite G in M. eauto.
      + exists c', t', d'. auto.
    - intros [(d' & -> & D)|(c' & t' & d' & -> & J & M)]; [now apply DH|]. exists c', t', d'. split; auto. split; auto. now right. }
  assert (BT : forall w, both ((c, t) :: ea) eb w <-> (exists w', w = c :: w' /\ has t w' /\ has u w') \/ both ea eb w).
  { intros w. split.
    - intros (c' & t' & u' & w' & -> & [J|J] & Gu & Ha & Hb); [left|right].
      + injection J as <- <-. assert (u' = u) as -> by congruence. eauto.
      + exists c', t', u', w'. auto.
    - intros [(w' & -> & Ha & Hb)|(c' & t' & u' & w' & -> & J & Gu & Ha & Hb)].
      + exists c, t, u, w'. split; auto. split; [now left|]. auto.
      + exists c', t', u', w'. split; auto. split; [now right|]. auto. }
  assert (Later : forall w, both ea eb w \/ differ_at ea eb w -> forall v, slex_lt (c :: v) w).
  { intros w [(c' & t' & u' & w' & -> & J & _)|(c' & t' & w' & -> & J & _)] v; apply slex_head; eapply Lt; eauto. }
  assert (Asym : forall d w, (both ea eb d \/ differ_at ea eb d) -> ~ slex_lt d (c :: w)).
  { intros d w [(c' & t' & u' & w' & -> & J & _)|(c' & t' & w' & -> & J & _)] X; apply Lt in J; inversion X; subst; lia. }
  destruct r.
  - specialize (IH ltac:(intros; eapply H; [right; eassumption|assumption])).
    destruct (tlog_each tlog eb ea) as [r' more]. destruct IH as (Nd' & Hr' & Hw').
    assert (ND : forall d, ~ differs t u d) by now apply Hr.
    split; [|split].
    + assert (D : forall x, In x (map (cons c) calls) -> ~ In x more).
      { intros x J1 J2. apply in_map_iff in J1. destruct J1 as (v & <- & _). apply Hw' in J2. destruct J2 as [B _].
        destruct B as (c' & t' & ? & ? & E & J & _). injection E as <- _. apply Lt in J. lia. }
      clear -Ndc Nd' D. induction Ndc as [|x l N Nl IH]; cbn; [exact Nd'|]. constructor.
      * rewrite in_app_iff. intros [J|J]; [contradiction|]. exact (D x (or_introl eq_refl) J).
      * apply IH. intros y J. apply D. now right.
    + rewrite Hr'. split; intros X d D; [apply DT in D; destruct D as [(d' & _ & D)|D]; [destruct (ND _ D)|destruct (X _ D)]|].
      apply (X d), DT. now right.
    + intros w. rewrite in_app_iff. split.
      * intros [J|J].
        -- apply in_map_iff in J. destruct J as (v & <- & J). apply Hw in J. destruct J as (Ha & Hb & N). split; [apply BT; left; eauto|].
           intros d D. apply DT in D. destruct D as [(d' & -> & D)|D]; [destruct (ND _ D)|]. apply Asym. now right.
        -- apply Hw' in J. destruct J as (B & N). split; [apply BT; now right|]. intros d D. apply DT in D.
           destruct D as [(d' & -> & D)|D]; [destruct (ND _ D)|]. now apply N.
      * intros [B N]. apply BT in B. destruct B as [(w' & -> & Ha & Hb)|B]; [left|right].
        -- apply Here, Hw. split; auto. split; auto. intros d D. destruct (ND _ D).
        -- apply Hw'. split; auto. intros d D. apply N, DT. now right.
  - assert (Ex : ~ forall d, ~ differs t u d) by (intros X; apply Hr in X; discriminate).
    split; [exact Ndc|]. split; [split; [discriminate|]; intros X; exfalso; apply Ex; intros d D; apply (X (c :: d)), DH, D|].
    intros w. split.
    + intros J. apply in_map_iff in J. destruct J as (v & <- & J). apply Hw in J. destruct J as (Ha & Hb & N). split; [apply BT; left; eauto|].
      intros d D. apply DT in D. destruct D as [(d' & -> & D)|D]; [rewrite slex_same; now apply N|]. apply Asym. now right.
    + intros [B N]. apply BT in B. destruct B as [(w' & -> & Ha & Hb)|B].
      * apply Here, Hw. split; auto. split; auto. intros d D X. apply (N (c :: d)); [now apply DH|]. now apply slex_same.
      * exfalso. apply Ex. intros d D. apply (N (c :: d)); [now apply DH|]. apply Later. now left.
Qed.

Lemma tlog_right : forall ta tb, tsorted ta -> tsorted tb -> right_log ta tb (fst (tlog ta tb)) (snd (tlog ta tb)).
Proof.
  induction ta as [fa ea IH] using tree_ind'. intros [fb eb] Sa Sb. inversion Sa as [? ? So F]; subst. inversion Sb as [? ? So' F']; subst.
  rewrite Forall_forall in IH, F, F'. cbn [tlog tfin tedges].
  assert (Stop : differs (T fa ea) (T fb eb) [] -> right_log (T fa ea) (T fb eb) false [[]]).
  { intros D. split; [repeat constructor; cbn; tauto|]. split; [split; [discriminate|]; intros X; destruct (X _ D)|]. intros w. split.
    - intros [<-|[]]. split; [exact Logic.I|]. split; [exact Logic.I|]. intros d _ X. inversion X.
    - intros (_ & _ & N). destruct w as [|c w]; [now left|]. destruct (N [] D). constructor. }
  destruct (Bool.eqb fa fb) eqn:E; cbn [negb].
  2:{ apply Stop. split; [exact Logic.I|]. right. left. cbn. intros ->. now rewrite Bool.eqb_reflx in E. }
  apply Bool.eqb_prop in E. subst fb.
  destruct (Nat.eqb_spec (length ea) (length eb)) as [L|L]; cbn [negb].
  2:{ apply Stop. split; [exact Logic.I|]. right. right. exact L. }
  pose proof (tlog_each_right eb ea So) as X.
  assert (Y : forall c t u, In (c, t) ea -> edge_get eb c = Some u -> right_log t u (fst (tlog t u)) (snd (tlog t u))).
  { intros c t u J G. apply (IH _ J); [exact (F _ J)|]. apply edge_get_In in G. exact (F' _ G). }
  specialize (X Y). destruct (tlog_each tlog eb ea) as [r l]. cbn [fst snd]. destruct X as (Nd & Hr & Hw).
  assert (D : forall d, differs (T fa ea) (T fa eb) d <-> differ_at ea eb d).
  { intros d. split.
    - intros [Ha Hd]. destruct d as [|c d].
      + cbn in Hd. destruct Hd as [X|[X|X]]; exfalso; tauto.
      + cbn [has sub tedges] in *. destruct (edge_get ea c) as [t|] eqn:Ga; [|destruct Ha]. exists c, t, d. split; [reflexivity|].
        split; [now apply edge_get_In|]. unfold tget in Hd. cbn [tedges] in Hd. rewrite Ga in Hd.
        destruct (edge_get eb c) as [u|]; [|exact Ha]. split; assumption.
    - intros (c & t & d' & -> & J & M). apply (edge_In_get _ _ _ _ So) in J. unfold differs. cbn [has sub tedges]. unfold tget. cbn [tedges].
      rewrite J. destruct (edge_get eb c) as [u|]; [exact M|]. split; [exact M|]. left. auto. }
  assert (B : forall w, both ea eb w <-> w <> [] /\ has (T fa ea) w /\ has (T fa eb) w).
  { intros w. split.
    - intros (c & t & u & w' & -> & J & G & Ha & Hb). apply (edge_In_get _ _ _ _ So) in J. cbn [has tedges]. rewrite J, G.
      split; [discriminate|]. auto.
    - intros (N & Ha & Hb). destruct w as [|c w]; [contradiction|]. cbn [has tedges] in *.
      destruct (edge_get ea c) as [t|] eqn:Ga; [|destruct Ha]. destruct (edge_get eb c) as [u|] eqn:Gb; [|destruct Hb].
      exists c, t, u, w. split; auto. split; [now apply edge_get_In|]. auto. }
  split; [|split].
  - constructor; [|exact Nd]. intros J. apply Hw in J. destruct J as [J _]. apply B in J. tauto.
  - rewrite Hr. split; intros X d J; apply (X d), D, J.
  - intros w. cbn [In]. rewrite Hw. split.
    + intros [<-|[J N]].
      * split; [exact Logic.I|]. split; [exact Logic.I|]. intros d _ X. inversion X.
      * apply B in J. destruct J as (_ & Ha & Hb). split; auto. split; auto. intros d J. apply N, D, J.
    + intros (Ha & Hb & N). destruct w as [|c w]; [now left|right]. split; [apply B; split; [discriminate|auto]|].
      intros d J. apply N, D, J.
Qed.

(** ** In terms of the terms *)
Lemma has_prefix terms w : has (trie terms) w <-> is_prefix terms w.
Proof.
  unfold is_prefix. destruct w as [|c w]; [cbn; tauto|]. rewrite has_trie by discriminate. split; [auto|]. intros [X|X]; [discriminate|auto].
Qed.

Lemma fin_sub terms w : tfin (sub (trie terms) w) = true <-> In w terms.
Proof. rewrite <- tin_trie. pose proof (tin_sub w (trie terms) []) as E. rewrite app_nil_r in E. rewrite <- E. reflexivity. Qed.

Lemma follow_sub terms w n : can_follow terms w n <-> n = length (tedges (sub (trie terms) w)).
Proof.
  destruct (sub_trie terms w) as [So Us]. destruct (sub (trie terms) w) as [f es] eqn:E. cbn [tedges].
  inversion So as [? ? Se _]; subst. inversion Us as [? ? Ne _]; subst. rewrite Forall_forall in Ne.
  assert (N : NoDup (map fst es)).
  { clear -Se. induction Se as [|[c t] es S IH F]; cbn; constructor; auto. rewrite in_map_iff. intros ([c' t'] & X & J). cbn in X. subst c'.
    rewrite Forall_forall in F. specialize (F _ J). unfold elt in F. cbn in F. lia. }
  assert (I : forall c, In c (map fst es) <-> exists u, In (w ++ c :: u) terms).
  { intros c. rewrite in_map_iff. split.
    - intros ([c' t] & X & J). cbn in X. subst c'. destruct (Ne _ J) as (u & Hu). exists u. apply tin_trie. rewrite <- tin_sub, E. cbn [tin tedges].
      rewrite (edge_In_get _ _ _ _ Se J). exact Hu.
    - intros (u & J). apply tin_trie in J. rewrite <- tin_sub, E in J. cbn [tin tedges] in J. destruct (edge_get es c) as [t|] eqn:G; [|discriminate].
      exists (c, t). split; [reflexivity|]. now apply edge_get_In. }
  split.
  - intros (cs & Nd & Ic & <-). rewrite <- (map_length fst es). apply Permutation_length, NoDup_Permutation; auto. intros c. rewrite Ic, I. reflexivity.
  - intros ->. exists (map fst es). split; auto. split; auto. apply map_length.
Qed.

Lemma differs_noticed terms1 terms2 w : differs (trie terms1) (trie terms2) w <-> noticed terms1 terms2 w.
Proof.
  unfold differs, noticed. rewrite !has_prefix. split; intros [P D]; (split; [exact P|]); (destruct D as [D|[D|D]]; [now left| |]); right.
  - left. intros X. apply D. apply Bool.eq_iff_eq_true. rewrite !fin_sub. exact X.
  - right. eexists _, _. split; [now apply follow_sub|]. split; [now apply follow_sub|]. exact D.
  - left. intros X. apply D. rewrite <- !fin_sub, X. reflexivity.
  - right. destruct D as (n1 & n2 & F1 & F2 & D). apply follow_sub in F1. apply follow_sub in F2. congruence.
Qed.

(** ** Saving *)
Definition c_nodes_each (fuel : nat) (h : heap) :=
  fix each (es : list (char * ptr)) (ids finals : list N) (calls : nat) : res (list N * list N * nat) :=
    match es with
    | [] => Ok (ids, finals, calls)
    | (_, target) :: es' =>
        do (ids1, finals1, more) <- c_collect_nodes fuel h target ids finals;
        each es' ids1 finals1 (calls + more)
    end.

Lemma c_collect_nodes_S : forall fuel h p ids finals, c_collect_nodes (S fuel) h p ids finals =
  if set_mem p ids then Ok (ids, finals, 1)
  else do n <- read h p;
       c_nodes_each fuel h (nedges n) (id_insert p ids) (if nfin n then id_insert p finals else finals) 1.
Proof. reflexivity. Qed.

Definition degree (h : heap) (p : ptr) : nat := match hget h p with Some n => length (nedges n) | None => 0 end.
Definition degrees (h : heap) (ids : list ptr) : nat := list_sum (map (degree h) ids).

Lemma degrees_insert h p : forall ids, ~ In p ids -> degrees h (id_insert p ids) = degree h p + degrees h ids.
Proof.
  unfold degrees. induction ids as [|x ids IH]; intros N; [reflexivity|]. cbn [id_insert]. destruct (p <? x)%N; [reflexivity|].
  destruct (N.eqb_spec p x) as [->|_]; [destruct N; now left|]. cbn [map list_sum fold_right]. unfold list_sum in IH.
  rewrite IH by (intros J; apply N; now right). lia.
Qed.

Lemma c_collect_nodes_ok : forall fuel h p ids finals ids' finals', collect_nodes fuel h p ids finals = Ok (ids', finals') ->
  exists calls, c_collect_nodes fuel h p ids finals = Ok (ids', finals', calls) /\ degrees h ids' + 1 = degrees h ids + calls.
Proof.
  induction fuel as [|fuel IH]; intros h p ids finals ids' finals' E; [discriminate|].
  rewrite collect_nodes_S in E. rewrite c_collect_nodes_S. destruct (set_mem p ids) eqn:M.
  { injection E as <- <-. exists 1. split; [reflexivity|lia]. }
  assert (NI : ~ In p ids) by (rewrite <- set_mem_In; congruence).
  destruct (read h p) as [n| |] eqn:R; try discriminate. cbn [rbind] in *.
  assert (Each : forall es ids finals calls0, nodes_each fuel h es ids finals = Ok (ids', finals') ->
    exists calls, c_nodes_each fuel h es ids finals calls0 = Ok (ids', finals', calls) /\
      degrees h ids' + calls0 + length es = degrees h ids + calls).
  { clear E NI M ids finals. induction es as [|[c q] es IHe]; intros ids finals calls0 E; cbn [nodes_each c_nodes_each length] in *.
    - injection E as <- <-. exists calls0. split; [reflexivity|lia].
    - destruct (collect_nodes fuel h q ids finals) as [[i f]| |] eqn:E1; try discriminate. cbn [rbind] in E.
      destruct (IH _ _ _ _ _ _ E1) as (more & -> & L). cbn [rbind]. destruct (IHe _ _ (calls0 + more) E) as (calls & -> & L').
      exists calls. split; [reflexivity|lia]. }
  destruct (Each _ _ _ 1 E) as (calls & -> & L). exists calls. split; [reflexivity|].
  rewrite degrees_insert in L by auto. unfold degree in L. unfold read in R. destruct (N.eqb p null); [discriminate|]. destruct (hget h p) as [n'|]; try discriminate.
  cbn in R. injection R as ->. lia.
Qed.

Definition c_edges_each (fuel : nat) (h : heap) (source : ptr) :=
  fix each (es : list (char * ptr)) (edges : edge_map) (calls : nat) : res (edge_map * nat) :=
    match es with
    | [] => Ok (edges, calls)
    | (label, target) :: es' =>
        if edges_contains edges (source, label) then each es' edges calls
        else
          do (edges1, more) <- c_collect_edges fuel h target (edges_insert edges (source, label) target);
          each es' edges1 (calls + more)
    end.

Lemma c_collect_edges_S : forall fuel h p edges, c_collect_edges (S fuel) h p edges =
  do n <- read h p; c_edges_each fuel h p (nedges n) edges 1.
Proof. reflexivity. Qed.

Lemma edges_insert_length k v : forall m, length (edges_insert m k v) = S (length m).
Proof. induction m as [|[k' v'] m IH]; cbn; [reflexivity|]. destruct (key_ltb k k'); cbn; [reflexivity|]. now rewrite IH. Qed.

Lemma c_collect_edges_ok : forall fuel h p m m', collect_edges fuel h p m = Ok m' ->
  exists calls, c_collect_edges fuel h p m = Ok (m', calls) /\ length m' + 1 = length m + calls.
Proof.
  induction fuel as [|fuel IH]; intros h p m m' E; [discriminate|].
  rewrite collect_edges_S in E. rewrite c_collect_edges_S. destruct (read h p) as [n| |]; try discriminate. cbn [rbind] in *.
  assert (Each : forall es m calls0, edges_each fuel h p es m = Ok m' ->
    exists calls, c_edges_each fuel h p es m calls0 = Ok (m', calls) /\ length m' + calls0 = length m + calls).
  { clear E m. induction es as [|[c q] es IHe]; intros m calls0 E; cbn [edges_each c_edges_each] in *.
    - injection E as <-. exists calls0. split; [reflexivity|lia].
    - destruct (edges_contains m (p, c)); [now apply IHe|].
      destruct (collect_edges fuel h q (edges_insert m (p, c) q)) as [m1| |] eqn:E1; try discriminate. cbn [rbind] in E.
      destruct (IH _ _ _ _ E1) as (more & -> & L). cbn [rbind]. destruct (IHe _ (calls0 + more) E) as (calls & -> & L').
      exists calls. split; [reflexivity|]. rewrite edges_insert_length in L. lia. }
  destruct (Each _ _ 1 E) as (calls & -> & L). exists calls. split; [reflexivity|lia].
Qed.

Definition outgoing (h : heap) (p : ptr) : list edge_msg :=
  match hget h p with Some n => map (fun e => EdgeMsg p (label_to_msg (fst e)) (snd e)) (nedges n) | None => [] end.

Lemma degrees_edges h d m t : unf h (d_root d) t -> describes h d m -> degrees h (m_nodes m) = length (m_edges m).
Proof.
  intros U D. set (l := flat_map (outgoing h) (m_nodes m)).
  assert (L : degrees h (m_nodes m) = length l).
  { unfold l, degrees. induction (m_nodes m) as [|x xs IH]; [reflexivity|]. cbn [map list_sum fold_right flat_map]. rewrite app_length.
    unfold list_sum in IH. rewrite IH. f_equal. unfold degree, outgoing. destruct (hget h x); [|reflexivity]. now rewrite map_length. }
  rewrite L. apply Permutation_length, NoDup_Permutation.
  - assert (So : forall x n, In x (m_nodes m) -> hget h x = Some n -> esorted (nedges n)).
    { intros x n J G. apply (ds_nodes _ _ _ D) in J. destruct (unf_reach _ _ _ J _ U) as (t' & U' & _). apply unf_inv in U'.
      destruct U' as (n' & _ & G' & (S & _)). congruence. }
    pose proof (ds_nodup _ _ _ D) as Nd. unfold l. clear l L D. induction (m_nodes m) as [|x xs IH]; [constructor|].
    cbn [flat_map]. inversion Nd as [|? ? Nx Nxs]; subst.
    assert (A : NoDup (outgoing h x)).
    { unfold outgoing. destruct (hget h x) as [n|] eqn:G; [|constructor]. specialize (So x n (or_introl eq_refl) G).
      induction So as [|[c q] es S IHs F]; cbn; constructor; auto. rewrite in_map_iff. intros ([c' q'] & X & J). cbn in X. injection X as Ec Eq.
      rewrite Forall_forall in F. specialize (F _ J). unfold elt in F. cbn in F.
      apply (f_equal label_of_msg) in Ec. rewrite !label_round in Ec. subst c'. lia. }
    assert (B : NoDup (flat_map (outgoing h) xs)) by (apply IH; auto; intros y n J; apply So; now right).
    assert (C : forall e, In e (outgoing h x) -> ~ In e (flat_map (outgoing h) xs)).
    { assert (Src : forall y e, In e (outgoing h y) -> em_source e = y).
      { intros y e J. unfold outgoing in J. destruct (hget h y); [|destruct J]. apply in_map_iff in J. destruct J as (? & <- & _). reflexivity. }
      intros e J1 J2. apply in_flat_map in J2. destruct J2 as (y & Jy & J2). apply Src in J1. apply Src in J2. subst. contradiction. }
    clear -A B C. induction A as [|e es N Ns IH]; cbn; [exact B|]. constructor.
    + rewrite in_app_iff. intros [J|J]; [contradiction|]. exact (C e (or_introl eq_refl) J).
    + apply IH. intros y J. apply C. now right.
  - exact (NoDup_map_inv _ _ (ds_keys _ _ _ D)).
  - intros e. rewrite (ds_edges _ _ _ D). unfold l. rewrite in_flat_map. split.
    + intros (x & J & Je). apply (ds_nodes _ _ _ D) in J. unfold outgoing in Je. destruct (hget h x) as [n|] eqn:G; [|destruct Je].
      apply in_map_iff in Je. destruct Je as ([c q] & <- & Je). exists x, c, q. eauto 6.
    + intros (x & c & q & -> & J & n & G & Je). exists x. split; [now apply (ds_nodes _ _ _ D)|]. unfold outgoing. rewrite G.
      apply in_map_iff. exists (c, q). auto.
Qed.

Lemma c_to_protobuf_ok h d t m : unf h (d_root d) t -> runs_to (fun fuel => to_protobuf fuel h d) m ->
  runs_to (fun fuel => c_to_protobuf fuel h d) (m, S (length (m_edges m)), S (length (m_edges m))).
Proof.
  intros U R. pose proof (written h d m t U R) as D. pose proof (degrees_edges h d m t U D) as De. destruct R as (B & R). exists B.
  intros fuel Hf. specialize (R fuel Hf). unfold to_protobuf in R. unfold c_to_protobuf.
  destruct (collect_nodes fuel h (d_root d) [] []) as [[ids finals]| |] eqn:E1; try discriminate. cbn [rbind] in R.
  destruct (collect_edges fuel h (d_root d) []) as [es| |] eqn:E2; try discriminate. cbn [rbind] in R. injection R as <-.
  destruct (c_collect_nodes_ok _ _ _ _ _ _ _ E1) as (k1 & -> & L1). destruct (c_collect_edges_ok _ _ _ _ _ E2) as (k2 & -> & L2).
  cbn [rbind m_edges m_nodes] in *. rewrite map_length in *. cbn in L1, L2. do 3 f_equal; [f_equal|]; lia.
Qed.

(** The functions that count are the functions that do not. *)
Lemma c_node_eq_fst : forall fuel h a b, node_eq fuel h a b = do (r, _) <- c_node_eq fuel h a b; Ok r.
Proof.
  induction fuel as [|fuel IH]; intros h a b; [reflexivity|]. rewrite node_eq_S, c_node_eq_S.
  destruct (negb (Bool.eqb _ _)); [reflexivity|]. destruct (negb (Nat.eqb _ _)); [reflexivity|].
  assert (E : forall es, eq_each fuel h b es = do (r, _) <- c_eq_each fuel h b es; Ok r).
  { induction es as [|[c p] es IHe]; cbn [eq_each c_eq_each]; [reflexivity|]. destruct (N.eqb _ _); [reflexivity|].
    destruct (read h p) as [x| |]; cbn [rbind]; try reflexivity. destruct (read h (transition b c)) as [y| |]; cbn [rbind]; try reflexivity.
    rewrite IH. destruct (c_node_eq fuel h x y) as [[[|] l]| |]; cbn [rbind]; try reflexivity. rewrite IHe.
    destruct (c_eq_each fuel h b es) as [[r l']| |]; reflexivity. }
  rewrite E. destruct (c_eq_each fuel h b (nedges a)) as [[r l]| |]; reflexivity.
Qed.
