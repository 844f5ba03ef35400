(** * ForeignProofs: reading arbitrary messages. *)
From Verif Require Import Base ModelDawg ModelSerial SpecDawg SpecSerial SpecForeign TreeProofs HeapProofs BuildProofs SerialProofs.
Local Open Scope nat_scope.

Lemma member_In : forall i l, member i l = true <-> In i l.
Proof. intros i l. apply set_mem_In. Qed.

Lemma member_not : forall i l, member i l = false <-> ~ In i l.
Proof. intros i l. rewrite <- member_In. destruct (member i l); intuition congruence. Qed.

Record stands (h0 h : heap) (ids finals : list N) (f : N -> ptr) (dead : list N) (es : list edge_msg) : Prop := {
  st_fresh : forall i, In i ids -> f i <> null /\ hget h0 (f i) = None;
  st_unknown : forall i, ~ In i ids -> f i = null;
  st_inj : forall i j, In i ids -> In j ids -> f i = f j -> i = j;
  st_dead : forall i, In i dead -> In i ids /\ hget h (f i) = None;
  st_node : forall i, In i ids -> ~ In i dead -> exists n, hget h (f i) = Some n /\ nfin n = set_mem i finals /\ esorted (nedges n) /\
    forall c, edge_get (nedges n) c = option_map (fun e => f (em_target e)) (leaving i c es);
  st_rest : forall p, (forall i, In i ids -> p <> f i) -> hget h p = hget h0 p;
}.

Lemma leaving_cons : forall i c e es, leaving i c (e :: es) =
  if (em_source e =? i)%N && ceqb (label_of_msg (em_label e)) c then Some e else leaving i c es.
Proof. reflexivity. Qed.

Section Replay.
  Variables (h0 : heap) (ids finals : list N) (nodes : node_map).
  Let f := node_at nodes.

  Lemma add_edge_stands : forall h dead es e, stands h0 h ids finals f dead es ->
    match replay ids dead es [e] with
    | None => add_edge h (f (em_source e)) (label_of_msg (em_label e)) (f (em_target e)) = UB
    | Some (dead', es') => exists h', add_edge h (f (em_source e)) (label_of_msg (em_label e)) (f (em_target e)) = Ok h' /\
        stands h0 h' ids finals f dead' es'
    end.
  Proof.
    intros h dead es e St. cbn [replay]. set (s := em_source e). set (c := label_of_msg (em_label e)).
    destruct (member s ids) eqn:Ms; cbn [negb orb].
    2:{ apply member_not in Ms. rewrite (st_unknown _ _ _ _ _ _ _ St _ Ms). reflexivity. }
    apply member_In in Ms. destruct (st_fresh _ _ _ _ _ _ _ St _ Ms) as [Nn Fr].
    destruct (member s dead) eqn:Md.
    { apply member_In in Md. destruct (st_dead _ _ _ _ _ _ _ St _ Md) as [_ G]. unfold add_edge, read.
      apply N.eqb_neq in Nn. rewrite Nn, G. reflexivity. }
    apply member_not in Md. destruct (st_node _ _ _ _ _ _ _ St _ Ms Md) as (n & G & Fn & So & Ed).
    unfold add_edge. rewrite (read_ok _ _ _ Nn G). cbn [rbind].
    assert (Key : forall h1 dead1, (forall i, In i dead1 <-> In i dead \/ (exists old, leaving s c es = Some old /\ In (em_target old) ids /\ i = em_target old)) ->
      ~ In s dead1 -> (forall p, hget h1 p = if (existsb (fun i => N.eqb (f i) p) dead1) then None else hget h p) ->
      stands h0 (hset h1 (f s) (Node (nfin n) (edge_set (nedges n) c (f (em_target e))))) ids finals f dead1 (e :: es)).
    { intros h1 dead1 Hd Ns Hh.
      assert (Id : forall i, In i dead1 -> In i ids).
      { intros i I. apply Hd in I. destruct I as [I|(old & _ & I & ->)]; auto. apply (st_dead _ _ _ _ _ _ _ St _ I). }
      constructor; try apply St.
      - intros i I. split; auto. rewrite hget_hset_other.
        + rewrite Hh. replace (existsb _ dead1) with true; auto. symmetry. apply existsb_exists. exists i. split; auto. apply N.eqb_refl.
        + intros X. apply (st_inj _ _ _ _ _ _ _ St) in X; auto. subst. contradiction.
      - intros i I Nd. destruct (N.eq_dec i s) as [->|Ni].
        + rewrite hget_hset_same. eexists. split; [reflexivity|]. cbn [nfin nedges]. split; auto. split; [apply edge_set_sorted; auto|].
          intros c'. rewrite edge_get_set, leaving_cons. fold s c. rewrite N.eqb_refl. cbn [andb].
          destruct (ceqb_spec c' c) as [[-> E]|[N E]]; rewrite E.
          * replace (ceqb c c) with true by (symmetry; apply Ascii.eqb_refl). reflexivity.
          * destruct (ceqb_spec c c') as [[-> E']|[N' E']]; [congruence|]. rewrite E'. apply Ed.
        + rewrite hget_hset_other by (intros X; apply (st_inj _ _ _ _ _ _ _ St) in X; auto).
          assert (Nd0 : ~ In i dead) by (intros X; apply Nd, Hd; auto).
          destruct (st_node _ _ _ _ _ _ _ St i I Nd0) as (n' & G' & Fn' & So' & Ed'). exists n'. split.
          * rewrite Hh. replace (existsb _ dead1) with false; auto. symmetry. apply Bool.not_true_iff_false. intros X.
            apply existsb_exists in X. destruct X as (j & J & X). apply N.eqb_eq in X. apply (st_inj _ _ _ _ _ _ _ St) in X; auto. subst. contradiction.
          * split; auto. split; auto. intros c'. rewrite leaving_cons. fold s. destruct (N.eqb_spec s i); [congruence|]. cbn [andb]. auto.
      - intros p X. rewrite hget_hset_other by (apply X; auto). rewrite Hh. replace (existsb _ dead1) with false; [apply (st_rest _ _ _ _ _ _ _ St); auto|].
        symmetry. apply Bool.not_true_iff_false. intros Y. apply existsb_exists in Y. destruct Y as (j & J & Y). apply N.eqb_eq in Y. apply (X j); auto. }
    assert (Kd : forall p, hget h p = if existsb (fun i => N.eqb (f i) p) dead then None else hget h p).
    { intros p. destruct (existsb _ dead) eqn:X; auto. apply existsb_exists in X. destruct X as (j & J & Y). apply N.eqb_eq in Y. subst p. apply (st_dead _ _ _ _ _ _ _ St _ J). }
    unfold transition. rewrite Ed. destruct (leaving s c es) as [old|] eqn:El; cbn [option_map].
    - destruct (member (em_target old) ids) eqn:Mo; cbn [negb].
      + apply member_In in Mo. destruct (st_fresh _ _ _ _ _ _ _ St _ Mo) as [No _]. unfold delete. destruct (N.eqb_spec (f (em_target old)) null) as [X|_]; [contradiction|].
        destruct (member (em_target old) dead) eqn:Mod; cbn [orb].
        { apply member_In in Mod. destruct (st_dead _ _ _ _ _ _ _ St _ Mod) as [_ Go]. rewrite Go. reflexivity. }
        apply member_not in Mod. destruct (st_node _ _ _ _ _ _ _ St _ Mo Mod) as (no & Go & _). rewrite Go. cbn [rbind].
        destruct (N.eqb_spec (em_target old) s) as [X|X].
        { rewrite X. unfold read. apply N.eqb_neq in Nn. rewrite Nn, hget_hdel, N.eqb_refl. reflexivity. }
        assert (Gs : hget (hdel h (f (em_target old))) (f s) = Some n).
        { rewrite hget_hdel. destruct (N.eqb_spec (f s) (f (em_target old))) as [Y|_]; auto. apply (st_inj _ _ _ _ _ _ _ St) in Y; auto. congruence. }
        rewrite (read_ok _ _ _ Nn Gs). cbn [rbind]. eexists. split; [reflexivity|]. apply Key.
        * intros i. cbn [In]. split.
          -- intros [<-|I]; auto. right. exists old. auto.
          -- intros [I|(o & Eo & _ & ->)]; auto. left. congruence.
        * intros [I|I]; auto.
        * intros p. rewrite hget_hdel. cbn [existsb]. rewrite N.eqb_sym. destruct (f (em_target old) =? p)%N; cbn [orb]; auto.
      + apply member_not in Mo. rewrite (st_unknown _ _ _ _ _ _ _ St _ Mo). change (delete h null) with (Ok h : res heap). cbn [rbind].
        rewrite (read_ok _ _ _ Nn G). cbn [rbind]. eexists. split; [reflexivity|]. apply Key; auto.
        intros i. split; auto. intros [I|(o & Eo & I & _)]; auto. exfalso. apply Mo. congruence.
    - change (delete h null) with (Ok h : res heap). cbn [rbind]. rewrite (read_ok _ _ _ Nn G). cbn [rbind]. eexists. split; [reflexivity|]. apply Key; auto.
      intros i. split; auto. intros [I|(o & Eo & _)]; auto. discriminate.
  Qed.

  Lemma replay_cons : forall dead es e todo, replay ids dead es (e :: todo) =
    match replay ids dead es [e] with Some (dead', es') => replay ids dead' es' todo | None => None end.
  Proof.
    intros. cbn [replay]. destruct (negb _ || _); auto. destruct (leaving _ _ _); auto. destruct (negb _); auto. destruct (_ || _); auto.
  Qed.

  Lemma link_edges_stands : forall todo h dead es, stands h0 h ids finals f dead es ->
    match replay ids dead es todo with
    | None => link_edges h nodes todo = UB
    | Some (dead', es') => exists h', link_edges h nodes todo = Ok h' /\ stands h0 h' ids finals f dead' es'
    end.
  Proof.
    induction todo as [|e todo IH]; intros h dead es St; [exists h; auto|].
    rewrite replay_cons. cbn [link_edges]. pose proof (add_edge_stands h dead es e St) as X.
    destruct (replay ids dead es [e]) as [[dead' es']|]; [|fold f; rewrite X; reflexivity].
    destruct X as (h' & E & St'). fold f. rewrite E. cbn [rbind]. apply IH. auto.
  Qed.
End Replay.

Lemma from_protobuf_stands : forall alloc h m, allocator alloc ->
  match replay (m_nodes m) [] [] (m_edges m) with
  | None => from_protobuf alloc h m = UB
  | Some (dead, es) => exists f h', from_protobuf alloc h m = Ok (h', Builder (Dawg (f (m_root m)) (m_size m)) [] None) /\
      stands h h' (m_nodes m) (m_finals m) f dead es
  end.
Proof.
  intros alloc h m A. unfold from_protobuf.
  destruct (make_nodes_ok alloc h (m_finals m) A (m_nodes m) h [] []) as (h1 & nodes & E1 & all & I & D & L).
  - intros i; cbn; split; [tauto|]. intros [? X]. discriminate.
  - constructor; cbn; try tauto.
  - rewrite E1. assert (I' : forall i, In i (m_nodes m) <-> In i all) by (intros; rewrite I; cbn; tauto).
    assert (St : stands h h1 (m_nodes m) (m_finals m) (node_at nodes) [] []).
    { destruct L as [L2a L2b L2c L2d]. constructor.
      - intros i J. apply L2a, I'; auto.
      - intros i J. unfold node_at. destruct (find_node nodes i) eqn:X; auto. exfalso. apply J, I', D. eauto.
      - intros i j J K. apply L2b; apply I'; auto.
      - intros i [].
      - intros i J _. destruct (L2c i) as (n & G & Fn & So & Ed); [apply I'; auto|]. exists n. split; auto. split; auto. split; auto.
        intros c. cbn. destruct (edge_get (nedges n) c) as [q|] eqn:X; auto. apply Ed in X. destruct X as (? & [] & _).
      - intros p X. apply L2d. intros i J. apply X, I'; auto. }
    pose proof (link_edges_stands h (m_nodes m) (m_finals m) nodes (m_edges m) h1 [] [] St) as X.
    destruct (replay _ _ _ _) as [[dead es]|]; [|rewrite X; reflexivity].
    destruct X as (h' & E & St'). rewrite E. cbn [rbind]. eauto.
Qed.

(** ** contains *)
Section Use.
  Variables (h0 h : heap) (ids finals : list N) (f : N -> ptr) (dead : list N) (es : list edge_msg).
  Hypothesis St : stands h0 h ids finals f dead es.

  Lemma read_stands : forall i, (In i ids /\ ~ In i dead -> exists n, read h (f i) = Ok n /\ nfin n = set_mem i finals /\ esorted (nedges n) /\
       forall c, edge_get (nedges n) c = option_map (fun e => f (em_target e)) (leaving i c es)) /\
    (~ (In i ids /\ ~ In i dead) -> read h (f i) = UB).
  Proof.
    intros i. split.
    - intros [I D]. destruct (st_node _ _ _ _ _ _ _ St i I D) as (n & G & X). exists n. split; auto.
      apply read_ok; auto. apply (st_fresh _ _ _ _ _ _ _ St i I).
    - intros X. destruct (in_dec N.eq_dec i ids) as [I|I].
      + destruct (in_dec N.eq_dec i dead) as [D|D]; [|tauto]. unfold read. destruct (st_dead _ _ _ _ _ _ _ St i D) as [_ ->].
        destruct (f i =? null)%N; reflexivity.
      + rewrite (st_unknown _ _ _ _ _ _ _ St i I). reflexivity.
  Qed.

  Lemma contains_stands : forall w i k, (k + N.of_nat (length w) <= 2147483647)%N ->
    (do p <- contains_loop h (f i) k w; if N.eqb p null then Ok false else do n <- read h p; Ok (nfin n)) =
    match follow ids dead es i w with
    | There j => Ok (member j finals)
    | Nowhere => Ok false
    | Dangling => UB
    end.
  Proof.
    induction w as [|c w IH]; intros i k L; cbn [contains_loop follow].
    - cbn [rbind]. destruct (member i ids) eqn:Mi; cbn [negb].
      2:{ apply member_not in Mi. rewrite (st_unknown _ _ _ _ _ _ _ St i Mi). reflexivity. }
      apply member_In in Mi. destruct (st_fresh _ _ _ _ _ _ _ St i Mi) as [Nn _]. apply N.eqb_neq in Nn. rewrite Nn.
      destruct (read_stands i) as [R1 R2]. destruct (member i dead) eqn:Md.
      + apply member_In in Md. rewrite R2 by tauto. reflexivity.
      + apply member_not in Md. destruct (R1 (conj Mi Md)) as (n & R & Fn & _). rewrite R. cbn [rbind]. rewrite Fn. reflexivity.
    - destruct (member i ids) eqn:Mi; cbn [negb].
      2:{ apply member_not in Mi. rewrite (st_unknown _ _ _ _ _ _ _ St i Mi). reflexivity. }
      apply member_In in Mi. destruct (st_fresh _ _ _ _ _ _ _ St i Mi) as [Nn _]. apply N.eqb_neq in Nn. rewrite Nn.
      destruct (read_stands i) as [R1 R2]. destruct (member i dead) eqn:Md.
      + apply member_In in Md. rewrite R2 by tauto. reflexivity.
      + apply member_not in Md. destruct (R1 (conj Mi Md)) as (n & R & Fn & _ & Ed). rewrite R. cbn [rbind].
        cbn [length] in L. replace (k =? 2147483647)%N with false by (symmetry; apply N.eqb_neq; lia).
        unfold transition. rewrite Ed. destruct (leaving i c es) as [e|]; cbn [option_map].
        * apply IH. lia.
        * destruct w; reflexivity.
  Qed.

  (** ** delete *)
  Definition usable (i : N) : Prop := In i ids /\ ~ In i dead.

  Lemma loop_bad : forall w i j, walks ids dead es i w j -> ~ usable j -> forall pre post seen,
    exists N, forall fuel, N <= fuel -> all_nodes_loop fuel h (pre ++ f i :: post) seen = UB.
  Proof.
    intros w i j Wk Bad. induction Wk as [i|i c e w j Ii Di Le Wk IHw].
    - induction pre as [|p pre IHp]; intros post seen.
      + exists 1. intros [|fuel] H; [lia|]. cbn [all_nodes_loop app]. rewrite (proj2 (read_stands i)); auto.
      + destruct (read h p) as [n| |] eqn:R.
        * destruct (IHp (post ++ map snd (nedges n)) (set_insert p seen)) as (N & X). exists (S N). intros [|fuel] H; [lia|].
          cbn [all_nodes_loop app]. rewrite R. cbn [rbind]. rewrite <- app_assoc. apply X. lia.
        * exists 1. intros [|fuel] H; [lia|]. cbn [all_nodes_loop app]. rewrite R. reflexivity.
        * unfold read in R. destruct (p =? null)%N; [discriminate|]. destruct (hget h p); discriminate.
    - destruct (proj1 (read_stands i) (conj Ii Di)) as (n & R & _ & So & Ed).
      assert (I : In (c, f (em_target e)) (nedges n)). { apply edge_get_In. rewrite Ed, Le. reflexivity. }
      apply (in_map snd) in I. cbn [snd] in I. apply in_split in I. destruct I as (l1 & l2 & El).
      induction pre as [|p pre IHp]; intros post seen.
      + destruct (IHw Bad (post ++ l1) l2 (set_insert (f i) seen)) as (N & X). exists (S N). intros [|fuel] H; [lia|].
        cbn [all_nodes_loop app]. rewrite R. cbn [rbind]. rewrite El. rewrite app_assoc. apply X. lia.
      + destruct (read h p) as [n'| |] eqn:R'.
        * destruct (IHp (post ++ map snd (nedges n')) (set_insert p seen)) as (N & X). exists (S N). intros [|fuel] H; [lia|].
          cbn [all_nodes_loop app]. rewrite R'. cbn [rbind]. rewrite <- app_assoc. apply X. lia.
        * exists 1. intros [|fuel] H; [lia|]. cbn [all_nodes_loop app]. rewrite R'. reflexivity.
        * unfold read in R'. destruct (p =? null)%N; [discriminate|]. destruct (hget h p); discriminate.
  Qed.

  Definition visits (root : N) (p : ptr) : Prop := exists w i, walks ids dead es root w i /\ p = f i.

  Lemma walks_snoc : forall w i j c e, walks ids dead es i w j -> usable j -> leaving j c es = Some e ->
    walks ids dead es i (w ++ [c]) (em_target e).
  Proof.
    intros w i j c e Wk [U1 U2] L. induction Wk; cbn [app].
    - econstructor; eauto. constructor.
    - econstructor; eauto.
  Qed.

  Lemma loop_good : forall root, (forall w j, walks ids dead es root w j -> usable j) ->
    forall fuel pending seen, Forall (visits root) pending -> Forall (visits root) seen -> NoDup seen ->
    (forall p, visits root p -> (exists q, In q pending /\ exists w i j, walks ids dead es i w j /\ q = f i /\ p = f j) \/ In p seen) ->
    match all_nodes_loop fuel h pending seen with
    | Ok l => NoDup l /\ forall p, In p l <-> visits root p
    | UB => False
    | OOF => True
    end.
  Proof.
    intros root Good. induction fuel as [|fuel IH]; intros pending seen Fp Fs Nd Cov; cbn [all_nodes_loop]; auto.
    destruct pending as [|p pending].
    { split; auto. intros p. split; [rewrite Forall_forall in Fs; auto|]. intros V. destruct (Cov p V) as [(q & [] & _)|I]; auto. }
    inversion Fp as [|? ? (w & i & Wk & ->) Fp']; subst. pose proof (Good _ _ Wk) as Us.
    destruct (proj1 (read_stands i) Us) as (n & R & _ & So & Ed). rewrite R. cbn [rbind]. apply IH.
    - apply Forall_app. split; auto. apply Forall_forall. intros q I. apply in_map_iff in I. destruct I as ([c q'] & <- & I). cbn [snd].
      apply edge_In_get in I; auto. rewrite Ed in I. destruct (leaving i c es) as [e|] eqn:Le; [|discriminate]. injection I as <-.
      exists (w ++ [c]), (em_target e). split; auto. eapply walks_snoc; eauto.
    - unfold set_insert. destruct (set_mem (f i) seen); auto. apply Forall_app. split; auto. constructor; auto. exists w, i. auto.
    - apply set_insert_NoDup; auto.
    - intros p V.
      assert (Seen : forall q, In q seen -> In q (set_insert (f i) seen)).
      { intros q I. unfold set_insert. destruct (set_mem (f i) seen); auto. apply in_or_app; auto. }
      assert (Here : In (f i) (set_insert (f i) seen)).
      { unfold set_insert. destruct (set_mem (f i) seen) eqn:M; [apply set_mem_In; auto|]. apply in_or_app. right; left; auto. }
      destruct (Cov p V) as [(q & [<-|I] & w' & i' & j & Wk' & Eq & ->)|I]; auto.
      + assert (Ui : In i' ids). { destruct (in_dec N.eq_dec i' ids); auto. rewrite (st_unknown _ _ _ _ _ _ _ St i') in Eq by auto. destruct (st_fresh _ _ _ _ _ _ _ St i (proj1 Us)). congruence. }
        apply (st_inj _ _ _ _ _ _ _ St) in Eq; auto; [|apply Us]. subst i'. inversion Wk' as [|? c e w1 ? _ _ Le Wk1]; subst; auto.
        left. exists (f (em_target e)). split; [|exists w1, (em_target e), j; auto].
        apply in_or_app. right. apply in_map_iff. exists (c, f (em_target e)). split; auto. apply edge_get_In. rewrite Ed, Le. reflexivity.
      + left. exists q. split; [apply in_or_app; auto|]. exists w', i', j. auto.
  Qed.
  (** *** Unfolding *)
  Lemma stands_unf : forall k i, (forall w j, walks ids dead es i w j -> usable j) ->
    (forall w j, walks ids dead es i w j -> length w <= k) ->
    exists t, unf h (f i) t /\ height t <= S k /\ forall w, tin t w = true <-> exists j, walks ids dead es i w j /\ In j finals.
  Proof.
    induction k as [|k IH]; intros i Us Le; pose proof (Us [] i (walks_nil _ _ _ i)) as U; destruct U as [Ui Ud];
      destruct (st_node _ _ _ _ _ _ _ St i Ui Ud) as (n & G & Fn & So & Ed); destruct (st_fresh _ _ _ _ _ _ _ St i Ui) as [Nn _].
    - assert (L : forall c, leaving i c es = None).
      { intros c. destruct (leaving i c es) as [e|] eqn:L; auto. exfalso. specialize (Le [c] (em_target e)). cbn [length] in Le.
        enough (1 <= 0) by lia. apply Le. econstructor; eauto. constructor. }
      assert (E : nedges n = []).
      { destruct (nedges n) as [|[c q] l] eqn:En; auto. exfalso. rewrite <- En in *.
        assert (I : In (c, q) (nedges n)) by (rewrite En; left; auto). apply edge_In_get in I; auto. rewrite Ed, L in I. discriminate. }
      exists (T (nfin n) []). split; [|split; [cbn; lia|]].
      + econstructor; eauto. rewrite E. constructor.
      + intros [|c w]; cbn [tin tfin tedges edge_get].
        * rewrite Fn, set_mem_In. split; [intros J; exists i; split; auto; constructor|].
          intros (j & Wk & J). inversion Wk; subst; auto.
        * split; [discriminate|]. intros (j & Wk & J). inversion Wk as [|? ? e ? ? _ _ X _]; subst. rewrite L in X. discriminate.
    - assert (X : forall l, (forall c q, In (c, q) l -> In (c, q) (nedges n)) -> exists ts, unfs h l ts /\
        fold_right (fun e m => Nat.max (height (snd e)) m) 0 ts <= S k /\
        (forall c, match edge_get l c, edge_get ts c with
           | Some q, Some t => forall w, tin t w = true <-> exists e j, leaving i c es = Some e /\ walks ids dead es (em_target e) w j /\ In j finals
           | None, None => True
           | _, _ => False
           end)).
      { induction l as [|[c q] l IHl]; intros Sub.
        - exists []. split; [constructor|]. split; [cbn; lia|]. intros c. exact I.
        - destruct IHl as (ts & Ut & Ht & Et); [intros; apply Sub; right; auto|].
          assert (Iq : In (c, q) (nedges n)) by (apply Sub; left; auto). apply edge_In_get in Iq; auto. rewrite Ed in Iq.
          destruct (leaving i c es) as [e|] eqn:L; [|discriminate]. injection Iq as <-.
          destruct (IH (em_target e)) as (t & U & Hh & Ti).
          { intros w j Wk. apply (Us (c :: w)). econstructor; eauto. }
          { intros w j Wk. specialize (Le (c :: w) j). cbn [length] in Le. enough (S (length w) <= S k) by lia. apply Le. econstructor; eauto. }
          exists ((c, t) :: ts). split; [constructor; auto|]. split; [cbn [fold_right snd]; lia|].
          intros c'. cbn [edge_get]. destruct (ceqb_spec c' c) as [[-> E']|[Ne E']]; rewrite E'; [|apply Et].
          intros w. rewrite Ti, L. split; [intros (j & Wk & J); exists e, j; auto|intros (e' & j & Ee & Wk & J); injection Ee as <-; eauto]. }
      destruct (X (nedges n)) as (ts & Ut & Ht & Et); auto.
      exists (T (nfin n) ts). split; [econstructor; eauto|]. split; [cbn [height]; lia|].
      intros [|c w]; cbn [tin tfin tedges].
      + rewrite Fn, set_mem_In. split; [intros J; exists i; split; auto; constructor|].
        intros (j & Wk & J). inversion Wk; subst; auto.
      + specialize (Et c). rewrite Ed in Et. destruct (leaving i c es) as [e|] eqn:L; cbn [option_map] in Et.
        * destruct (edge_get ts c) as [t|]; [|tauto]. rewrite Et. split.
          -- intros (e' & j & Ee & Wk & J). injection Ee as <-. exists j. split; auto. econstructor; eauto.
          -- intros (j & Wk & J). inversion Wk as [|? ? e' ? ? _ _ X' Wk']; subst. exists e', j. rewrite L in X'. auto.
        * destruct (edge_get ts c); [tauto|]. split; [discriminate|]. intros (j & Wk & J). inversion Wk as [|? ? e ? ? _ _ X' _]; subst. congruence.
  Qed.

  (** *** How long it takes. *)
  Inductive weighs : ptr -> nat -> Prop :=
  | weighs_node : forall p n ks, read h p = Ok n -> Forall2 weighs (map snd (nedges n)) ks -> weighs p (S (list_sum ks)).

  Lemma weighed : forall k i, (forall w j, walks ids dead es i w j -> usable j) ->
    (forall w j, walks ids dead es i w j -> length w <= k) -> exists m, weighs (f i) m.
  Proof.
    induction k as [|k IH]; intros i Us Le.
    - pose proof (Us [] i (walks_nil _ _ _ i)) as U. destruct (proj1 (read_stands i) U) as (n & R & _ & So & Ed).
      assert (E : nedges n = []).
      { destruct (nedges n) as [|[c q] l] eqn:En; auto. exfalso. rewrite <- En in *.
        assert (I : In (c, q) (nedges n)) by (rewrite En; left; auto). apply edge_In_get in I; auto. rewrite Ed in I.
        destruct (leaving i c es) as [e|] eqn:L; [|discriminate]. specialize (Le [c] (em_target e)). cbn [length] in Le.
        enough (1 <= 0) by lia. apply Le. econstructor; eauto; try apply U. constructor. }
      exists (S (list_sum [])). econstructor; [exact R|]. rewrite E. constructor.
    - pose proof (Us [] i (walks_nil _ _ _ i)) as U. destruct (proj1 (read_stands i) U) as (n & R & _ & So & Ed).
      assert (X : exists ks, Forall2 weighs (map snd (nedges n)) ks).
      { assert (Y : forall q, In q (map snd (nedges n)) -> exists m, weighs q m).
        { intros q I. apply in_map_iff in I. destruct I as ([c q'] & <- & I). cbn [snd]. apply edge_In_get in I; auto. rewrite Ed in I.
          destruct (leaving i c es) as [e|] eqn:L; [|discriminate]. injection I as <-. apply IH.
          - intros w j Wk. apply (Us (c :: w)). econstructor; eauto; apply U.
          - intros w j Wk. specialize (Le (c :: w) j). cbn [length] in Le. enough (S (length w) <= S k) by lia. apply Le. econstructor; eauto; apply U. }
        clear - Y. induction (map snd (nedges n)) as [|q l IHl]; [exists []; constructor|].
        destruct (Y q) as (m & M); [left; auto|]. destruct IHl as (ks & K); [intros; apply Y; right; auto|]. exists (m :: ks). constructor; auto. }
      destruct X as (ks & K). exists (S (list_sum ks)). econstructor; eauto.
  Qed.

  Lemma loop_ends : forall fuel pending seen ks, Forall2 weighs pending ks -> list_sum ks < fuel ->
    all_nodes_loop fuel h pending seen <> OOF.
  Proof.
    induction fuel as [|fuel IH]; intros pending seen ks K L; [lia|]. cbn [all_nodes_loop].
    destruct K as [|p k pending ks Wp K]; [discriminate|]. inversion Wp as [? n ks' R K']; subst. rewrite R. cbn [rbind].
    apply IH with (ks := ks ++ ks').
    - apply Forall2_app; auto.
    - rewrite list_sum_app. cbn [list_sum fold_right] in L. change (fold_right Nat.add 0 ks) with (list_sum ks) in L. lia.
  Qed.

  Lemma loop_length : forall fuel pending seen out, all_nodes_loop fuel h pending seen = Ok out ->
    forall i w j, In (f i) pending -> walks ids dead es i w j -> length w < fuel.
  Proof.
    induction fuel as [|fuel IH]; intros pending seen out E i w j I Wk; [discriminate|]. cbn [all_nodes_loop] in E.
    destruct pending as [|p pending]; [destruct I|].
    destruct (read h p) as [n| |] eqn:R; cbn [rbind] in E; try discriminate.
    destruct I as [->|I]; [|specialize (IH _ _ _ E i w j (in_or_app _ _ _ (or_introl I)) Wk); lia].
    inversion Wk as [|? c e w' ? Ii Di Le Wk']; subst; [cbn [length]; lia|]. cbn [length].
    destruct (proj1 (read_stands i) (conj Ii Di)) as (n' & R' & _ & So & Ed). rewrite R in R'. injection R' as <-.
    enough (length w' < fuel) by lia. eapply IH; [exact E| |exact Wk']. apply in_or_app. right.
    apply in_map_iff. exists (c, f (em_target e)). split; auto. apply edge_get_In. rewrite Ed, Le. reflexivity.
  Qed.

  Lemma destroy_bad : forall root sz w j, walks ids dead es root w j -> ~ usable j ->
    exists N, forall fuel, N <= fuel -> destroy fuel h (Builder (Dawg (f root) sz) [] None) = UB.
  Proof.
    intros root sz w j Wk Bad. destruct (loop_bad w root j Wk Bad [] [] []) as (N & X). exists N. intros fuel L.
    unfold destroy, clean_up, all_nodes, destroy_dawg, all_nodes. cbn [b_work b_dawg d_root rbind]. cbn [app] in X.
    rewrite X by auto. reflexivity.
  Qed.

  Lemma destroy_good : forall root sz, (forall w j, walks ids dead es root w j -> usable j) ->
    (forall fuel, match destroy fuel h (Builder (Dawg (f root) sz) [] None) with
       | Ok h2 => exists out, (forall p, In p out <-> visits root p) /\ (forall p, In p out -> hget h2 p = None) /\
                  (forall p, ~ In p out -> hget h2 p = hget h p) /\ forall w j, walks ids dead es root w j -> length w < fuel
       | UB => False
       | OOF => True
       end).
  Proof.
    intros root sz Good fuel. unfold destroy, clean_up, destroy_dawg, all_nodes. cbn [b_work b_dawg d_root rbind].
    pose proof (loop_good root Good fuel [f root] []) as X.
    assert (V0 : visits root (f root)) by (exists [], root; split; auto; constructor).
    specialize (X (Forall_cons _ V0 (Forall_nil _)) (Forall_nil _) (NoDup_nil _)).
    destruct (all_nodes_loop fuel h [f root] []) as [out| |] eqn:E; cbn [rbind]; auto.
    - destruct X as [Nd Vi].
      { intros p (w & i & Wk & ->). left. exists (f root). split; [left; auto|]. exists w, root, i. auto. }
      destruct (delete_all_ok out h Nd) as (h2 & E2 & D1 & D2).
      { intros p I. apply Vi in I. destruct I as (w & i & Wk & ->). destruct (Good _ _ Wk) as [U1 U2]. split; [apply (st_fresh _ _ _ _ _ _ _ St i U1)|].
        destruct (st_node _ _ _ _ _ _ _ St i U1 U2) as (n & G & _). unfold allocated. rewrite G. discriminate. }
      rewrite E2. exists out. split; [|split; [|split]]; auto.
      intros w j Wk. eapply loop_length; [exact E| |exact Wk]. left; auto.
    - apply X. intros p (w & i & Wk & ->). left. exists (f root). split; [left; auto|]. exists w, root, i. auto.
  Qed.

  Lemma visits_usable : forall root i, (forall w j, walks ids dead es root w j -> usable j) -> In i ids ->
    visits root (f i) -> exists w, walks ids dead es root w i.
  Proof.
    intros root i Good I (w & j & Wk & Eq). apply (st_inj _ _ _ _ _ _ _ St) in Eq; auto; [subst; eauto|]. apply (Good _ _ Wk).
  Qed.

  Lemma destroy_ends : forall root sz k, (forall w j, walks ids dead es root w j -> usable j) ->
    (forall w j, walks ids dead es root w j -> length w <= k) ->
    exists N, forall fuel, N <= fuel -> destroy fuel h (Builder (Dawg (f root) sz) [] None) <> OOF.
  Proof.
    intros root sz k Good Le. destruct (weighed k root Good Le) as (m & M). exists (S m). intros fuel L.
    unfold destroy, clean_up, destroy_dawg, all_nodes. cbn [b_work b_dawg d_root rbind].
    pose proof (loop_ends fuel [f root] [] [m]) as X. destruct (all_nodes_loop fuel h [f root] []) as [out| |] eqn:E; cbn [rbind]; try discriminate.
    - clear. revert h. induction out as [|p out IH]; intros h; cbn [delete_all]; [discriminate|]. unfold delete.
      destruct (p =? null)%N; cbn [rbind]; auto. destruct (hget h p); cbn [rbind]; auto. discriminate.
    - exfalso. apply X; auto. cbn. lia.
  Qed.
End Use.

Lemma all_nodes_loop_more : forall fuel h pending seen out, all_nodes_loop fuel h pending seen = Ok out ->
  forall fuel', fuel <= fuel' -> all_nodes_loop fuel' h pending seen = Ok out.
Proof.
  induction fuel as [|fuel IH]; intros h pending seen out E [|fuel'] L; try discriminate; [lia|]. cbn [all_nodes_loop] in *.
  destruct pending as [|p pending]; auto. destruct (read h p); cbn [rbind] in *; try discriminate. apply IH; auto. lia.
Qed.

Lemma destroy_more : forall fuel h d prev h2, destroy fuel h (Builder d prev None) = Ok h2 ->
  forall fuel', fuel <= fuel' -> destroy fuel' h (Builder d prev None) = Ok h2.
Proof.
  intros fuel h d prev h2 E fuel' L. unfold destroy, clean_up, destroy_dawg, all_nodes in *. cbn [b_work b_dawg rbind] in *.
  destruct (all_nodes_loop fuel h [d_root d] []) as [out| |] eqn:El; cbn [rbind] in E; try discriminate.
  rewrite (all_nodes_loop_more _ _ _ _ _ El fuel' L). exact E.
Qed.
