(** * IterThrowProofs: iterators over a dictionary when memory runs out. *)
From Coq Require Import Permutation.
From Verif Require Import Base Spec ModelTransducer ModelDawg ModelState ModelIterator SpecIterator.
From Verif Require Import SpecThrow ModelThrow ModelIterThrow SpecIterThrow.
From Verif Require Import TreeProofs HeapProofs IterProofs PointerProofs MemoryProofs ThrowProofs IteratorProofs.
Set Implicit Arguments. Unset Strict Implicit.
Local Open Scope nat_scope.

Lemma sub_short B q q' : subsequence q q' -> short B q' -> short B q.
Proof. unfold short. intros S. induction S; intros H; auto; inversion H; subst; auto. Qed.

Lemma sub_qsize q q' : subsequence q q' -> qsize q <= qsize q'.
Proof. unfold qsize, sizes. intros S. induction S; cbn; lia. Qed.

Lemma spend_none b : spend b = None -> b <> None.
Proof. intros H ->. discriminate. Qed.

Lemma spend_some b b1 : spend b = Some b1 -> b <> None -> b1 <> None.
Proof. destruct b as [[|k]|]; cbn; congruence. Qed.

Lemma spend_from b b1 : spend b = Some b1 -> b1 <> None -> b <> None.
Proof. intros H N ->. cbn in H. congruence. Qed.

(** ** Without an exception nothing is different *)
Section Same.
  Variables (alloc : mem pcell -> ptr) (h : heap).

  Lemma try_push_children_same p : forall edges b m prefixes pending b' m' prefixes' pending',
    try_push_children alloc b m p edges prefixes pending = (b', m', prefixes', pending', true) ->
    push_children alloc m p edges prefixes pending = (m', prefixes', pending').
  Proof.
    induction edges as [|[c t] edges IH]; intros b m ps pe b' m' ps' pe' H; cbn in *.
    - now injection H as <- <- <- <-.
    - destruct (spend b) as [b1|]; [|discriminate]. destruct (spend b1) as [b2|]; [|discriminate].
      destruct (spend b2) as [b3|]; [|discriminate]. eauto.
  Qed.

  Lemma try_diter_loop_same : forall rounds b m prefixes pending b' m' prefixes' pending' p n,
    try_diter_loop alloc h rounds b m prefixes pending = Ok (b', m', prefixes', pending', Some (p, n)) ->
    diter_loop alloc h rounds m prefixes pending = Ok (m', prefixes', pending', p, n).
  Proof.
    induction rounds as [|rounds IH]; intros b m ps pe b' m' ps' pe' p n H; [discriminate|]. cbn in *.
    destruct pe as [|pre rest]; [discriminate|]. destruct (mread m pre) as [x| |]; try discriminate. cbn [rbind] in *.
    destruct (spend b) as [b1|]; [|discriminate]. destruct (read h (pc_node x)) as [y| |]; try discriminate. cbn [rbind] in *.
    destruct (try_push_children alloc b1 m pre (nedges y) ps rest) as [[[[b2 m1] ps1] pe1] done] eqn:E.
    destruct done; [|discriminate]. cbn in H. apply try_push_children_same in E. rewrite E.
    destruct (nfin y); [now injection H as <- <- <- <- <- <-|].
    destruct pe1; [now injection H as <- <- <- <- <- <-|eauto].
  Qed.

  Lemma try_diter_advance_same fuel b m it b' m' it' :
    try_diter_advance fuel alloc h b m it = Ok (b', m', it', true) -> diter_advance fuel alloc h m it = Ok (m', it').
  Proof.
    unfold try_diter_advance, diter_advance. destruct (di_pending it) as [|p ps]; [now intros [= <- <- <-]|].
    destruct (try_diter_loop alloc h fuel b m (di_prefixes it) (p :: ps)) as [[[[[b1 m1] ps1] pe1] r]| |] eqn:E; try discriminate.
    cbn [rbind]. destruct r as [[pre n]|]; [|discriminate]. apply try_diter_loop_same in E. rewrite E. cbn [rbind].
    destruct (nfin n); [|now intros [= <- <- <-]]. destruct (spend b1); [|discriminate].
    destruct (pcell_str fuel m1 pre); try discriminate. cbn [rbind]. now intros [= <- <- <-].
  Qed.

  Lemma try_diter_begin_same fuel b m d b' m' it :
    try_diter_begin fuel alloc h b m d = Ok (b', m', Some it) -> diter_begin fuel alloc h m d = Ok (m', it).
  Proof.
    unfold try_diter_begin, diter_begin. destruct (spend b) as [b1|]; [|discriminate].
    destruct (mnew alloc m (PCell (d_root d) null Ascii.zero)) as [p m1].
    destruct (spend b1) as [b2|]; [|discriminate]. destruct (spend b2) as [b3|]; [|discriminate].
    destruct (try_diter_advance fuel alloc h b3 m1 (DIter [p] [p] [] 0)) as [[[[b4 m2] it2] done]| |] eqn:E; try discriminate.
    cbn [rbind]. destruct done; [|discriminate]. intros [= <- <- <-]. eapply try_diter_advance_same. exact E.
  Qed.
End Same.

(** ** Invariants *)
Section Throw.
  Variables (alloc : mem pcell -> ptr) (h : heap).
  Hypothesis HA : mallocator alloc.

  Lemma try_push_children_ok base rest p s n : forall edges es b m os pend,
    unfs h edges es -> adds m base (os ++ rest) -> spells os p s n ->
    exists b' m' new extra more q done, try_push_children alloc b m p edges (map fst os) pend =
        (b', m', map fst (os ++ new), pend ++ more, done) /\
      adds m' base ((os ++ new) ++ extra ++ rest) /\ Forall2 (holds h (os ++ new)) more q /\
      (if done then q = children s es /\ extra = [] else
         subsequence q (children s es) /\ length extra <= 1 /\ b <> None).
  Proof using HA.
    induction edges as [|[c t] edges IH]; intros es b m os pend U Ha Hs; cbn [try_push_children].
    - inversion U; subst. exists b, m, [], [], [], [], true. rewrite !app_nil_r.
      split; [reflexivity|]. split; [exact Ha|]. split; [constructor|auto].
    - inversion U as [|? ? tt ? ts Ut Us]; subst.
      destruct (spend b) as [b1|] eqn:S0.
      2: { exists b, m, [], [], [], [], false. rewrite !app_nil_r. split; [reflexivity|].
           split; [exact Ha|]. split; [constructor|]. split; [apply sub_nil|]. split; [cbn; lia|now apply spend_none]. }
      destruct (mget_mnew m (PCell t p c) HA) as (child & m1 & E & G1 & G2 & G3 & G4 & G5).
      rewrite E. set (o := (child, PCell t p c)).
      assert (Ha1 : adds m1 base ((os ++ [o]) ++ rest)).
      { rewrite <- app_assoc. cbn [app]. eapply adds_perm; [apply Permutation_middle|]. eapply adds_one; eauto. }
      destruct (spend b1) as [b2|] eqn:S1.
      2: { exists b1, m1, [], [o], [], [], false. rewrite !app_nil_r. split; [reflexivity|].
           split; [now rewrite app_assoc|]. split; [constructor|]. split; [apply sub_nil|]. split; [cbn; lia|].
           eapply spend_from; eauto. now apply spend_none. }
      destruct (spend b2) as [b3|] eqn:S2.
      2: { exists b2, m1, [o], [], [], [], false. rewrite !app_nil_r. split; [now rewrite map_app|].
           split; [exact Ha1|]. split; [constructor|]. split; [apply sub_nil|]. split; [cbn; lia|].
           eapply spend_from; eauto. eapply spend_from; eauto. now apply spend_none. }
      assert (Hs1 : spells (os ++ [o]) p s n).
      { eapply spells_incl; [|exact Hs]. apply incl_appl, incl_refl. }
      destruct (IH ts b3 m1 (os ++ [o]) (pend ++ [child]) Us Ha1 Hs1)
        as (b' & m' & new & extra & more & q & done & E' & Ha' & F & D).
      rewrite map_app in E'. cbn [map fst o] in E'. rewrite E'. rewrite <- !app_assoc in *.
      exists b', m', ([o] ++ new), extra, (child :: more), ((s ++ [c], tt) :: q), done. split; [reflexivity|].
      split; [now rewrite <- app_assoc in *|]. split.
      + constructor; [|exact F]. exists t. cbn [fst snd o]. split; [|exact Ut].
        eapply spells_child; [|eapply spells_incl; [|exact Hs]; apply incl_appl, incl_refl].
        apply in_or_app. right. left. reflexivity.
      + destruct done; cbn [children map fst snd].
        * destruct D as (-> & ->). auto.
        * destruct D as (Sub & Le & Nn). split; [now apply subsequence_take|]. split; [exact Le|].
          eapply spend_from; eauto. eapply spend_from; eauto. eapply spend_from; eauto.
  Qed.

  Lemma try_diter_loop_ok base B fuel : forall b m os rest pend q,
    adds m base (os ++ rest) -> Forall2 (holds h os) pend q -> pend <> [] -> short B q -> qsize q < fuel ->
    exists b' m' os' extra pend' r q',
      try_diter_loop alloc h fuel b m (map fst os) pend = Ok (b', m', map fst os', pend', r) /\
      adds m' base (os' ++ extra ++ rest) /\ Forall2 (holds h os') pend' q' /\ short B q' /\ qsize q' < qsize q /\
      (b' <> None -> b <> None) /\
      match r with
      | None => length extra <= 1 /\ subsequence (enum q') (enum q) /\ b <> None
      | Some (p, n) => extra = [] /\
          ((nfin n = true /\ exists s, spells os' p s (match mget m' p with Some x => pc_node x | None => null end) /\
              length s <= B /\ enum q = s :: enum q') \/
           (nfin n = false /\ pend' = [] /\ enum q = []))
      end.
  Proof using HA.
    induction fuel as [|fuel IH]; intros b m os rest pend q Ha F NE Sh L; [lia|].
    destruct F as [|p [s [f es]] pend q Hp F]; [congruence|].
    inversion Sh as [|? ? Sh1 Sh2]; subst. cbn [fst snd] in Sh1.
    destruct Hp as (n0 & Sp & Up). cbn [fst snd] in Sp, Up.
    destruct (spells_in Sp) as (par & c & Hin).
    destruct (adds_get Ha (in_or_app _ rest _ (or_introl Hin))) as [G1 G2].
    destruct (unf_read _ _ _ Up) as (n & Rn & Gn & Sn & Un & Fn). cbn in Un, Fn.
    cbn [try_diter_loop]. rewrite (mread_ok G1 G2). cbn [rbind pc_node].
    pose proof (qsize_step s f es q) as Q.
    assert (Q1 : qsize q <= qsize (q ++ children s es)).
    { apply sub_qsize. rewrite <- (app_nil_r q) at 1. apply sub_app; [apply sub_refl|apply sub_nil]. }
    assert (Sk : forall q1, subsequence q1 (q ++ children s es) -> subsequence (enum q1) (enum ((s, T f es) :: q))).
    { intros q1 S1. rewrite enum_cons. apply sub_enum in S1. destruct f; cbn [app]; auto. now constructor. }
    destruct (spend b) as [b1|] eqn:S0.
    2: { exists b, m, os, [], pend, None, q. split; [reflexivity|]. split; [exact Ha|]. split; [exact F|].
         split; [exact Sh2|]. split; [lia|]. split; [auto|]. split; [cbn; lia|]. split; [|now apply spend_none].
         apply Sk. rewrite <- (app_nil_r q) at 1. apply sub_app; [apply sub_refl|apply sub_nil]. }
    rewrite Rn. cbn [rbind].
    destruct (@try_push_children_ok base rest p s n0 (nedges n) es b1 m os pend Un Ha Sp)
      as (b2 & m1 & new & extra & more & q1 & done & E1 & Ha1 & F1 & D1). rewrite E1.
    assert (F' : Forall2 (holds h (os ++ new)) (pend ++ more) (q ++ q1)).
    { apply Forall2_app; [|exact F1]. apply (forall2_impl (P := holds h os)); [|exact F].
      intros a b0. apply holds_incl, incl_appl, incl_refl. }
    assert (Sh' : short B (q ++ children s es)).
    { apply Forall_app. split; [exact Sh2|]. eapply short_children. exact Sh1. }
    assert (Bn : b2 <> None -> b <> None).
    { intros Nb ->. cbn in S0. injection S0 as <-. clear - E1 Nb.
      assert (K : forall edges m ps pe bb mm r1 r2 dd, try_push_children alloc None m p edges ps pe = (bb, mm, r1, r2, dd) -> bb = None).
      { clear. induction edges as [|[c t] edges IH]; intros m ps pe bb mm r1 r2 dd H; cbn in H; [congruence|].
        destruct (mnew alloc m (PCell t p c)). eapply IH; eauto. }
      apply K in E1. congruence. }
    destruct done; cbn [negb].
    2: { destruct D1 as (Sub & Le & Nn). assert (S1 : subsequence (q ++ q1) (q ++ children s es)).
         { apply sub_app; [apply sub_refl|exact Sub]. }
         exists b2, m1, (os ++ new), extra, (pend ++ more), None, (q ++ q1). split; [reflexivity|].
         split; [exact Ha1|]. split; [exact F'|]. split; [eapply sub_short; eauto|].
         split; [apply sub_qsize in S1; lia|]. split; [auto|]. split; [exact Le|]. split; [now apply Sk|].
         eapply spend_from; eauto. }
    destruct D1 as (-> & ->). cbn [app] in Ha1. rewrite enum_cons. rewrite Fn in *.
    destruct (nfin n) eqn:En.
    - eexists _, _, _, [], _, (Some (_, _)), (q ++ children s es). split; [reflexivity|]. split; [exact Ha1|].
      split; [exact F'|]. split; [exact Sh'|]. split; [lia|]. split; [exact Bn|]. split; [reflexivity|]. left. split; [exact En|].
      exists s. split; [|split; [|reflexivity]].
      + assert (G3 : mget m1 p = Some (PCell n0 par c)).
        { eapply adds_get; [exact Ha1|]. apply in_or_app. left. apply in_or_app. now left. }
        rewrite G3. cbn. eapply spells_incl; [|exact Sp]. apply incl_appl, incl_refl.
      + lia.
    - destruct (pend ++ more) as [|r rest'] eqn:Er.
      + inversion F' as [E0|]. eexists _, _, _, [], _, (Some (_, _)), []. split; [reflexivity|].
        split; [exact Ha1|]. split; [constructor|]. split; [constructor|].
        split; [change (qsize []) with 0; lia|]. split; [exact Bn|]. split; [reflexivity|]. right. auto.
      + destruct (IH b2 m1 (os ++ new) rest (r :: rest') (q ++ children s es) Ha1 F') as
          (b3 & m2 & os2 & extra & pend2 & r2 & q2 & E2 & Ha2 & F2 & Sh3 & L2 & Bn2 & D2); auto; [discriminate|lia|].
        exists b3, m2, os2, extra, pend2, r2, q2. split; [exact E2|]. split; [exact Ha2|]. split; [exact F2|].
        split; [exact Sh3|]. split; [lia|]. split; [auto|]. destruct r2 as [[p2 n2]|]; [exact D2|].
        destruct D2 as (? & ? & ?). auto.
  Qed.

  Lemma try_diter_advance_ok base B fuel b m os rest it q :
    adds m base (os ++ rest) -> going h os it q B -> B < fuel ->
    exists b' m' os' extra it' q' done, try_diter_advance fuel alloc h b m it = Ok (b', m', it', done) /\
      adds m' base (os' ++ extra ++ rest) /\ going h os' it' q' B /\ di_index it' = di_index it /\
      (if (done : bool) then extra = [] /\ di_value it' = next_value (di_value it) (enum q) /\ enum q' = tl (enum q)
       else length extra <= 1 /\ di_value it' = di_value it /\ subsequence (enum q') (enum q) /\ b <> None).
  Proof using HA.
    intros Ha [g1 g2 g3 g4] Hf. unfold try_diter_advance. destruct (di_pending it) as [|p ps] eqn:Ep.
    - inversion g2; subst. exists b, m, os, [], it, [], true. split; [reflexivity|]. split; [exact Ha|].
      split; [constructor; auto; [rewrite Ep; constructor]|]. auto.
    - rewrite g1.
      destruct (@try_diter_loop_ok base B fuel b m os rest (p :: ps) q Ha g2) as
        (b' & m' & os' & extra & pend' & r & q' & E & Ha' & F' & Sh' & L & Bn & D); auto; [discriminate|lia|].
      rewrite E. cbn [rbind]. destruct r as [[p' n]|].
      + destruct D as (-> & D). cbn [app] in Ha'. destruct D as [(En & s & Sp & Ls & Ee)|(En & -> & Ee)]; rewrite En.
        * destruct (spend b') as [b2|] eqn:S0.
          2: { eexists _, _, os', [], _, q', false. split; [reflexivity|]. split; [exact Ha'|].
               split; [constructor; cbn; auto; lia|]. cbn. split; [reflexivity|]. split; [lia|]. split; [reflexivity|].
               rewrite Ee. split; [constructor; apply sub_refl|]. apply Bn. now apply spend_none. }
          rewrite (@pcell_str_ok m' base (os' ++ rest) os' _ _ _ Ha' (incl_appl _ (incl_refl _)) Sp fuel) by lia.
          cbn [rbind]. eexists _, _, os', [], _, q', true. split; [reflexivity|]. split; [exact Ha'|].
          split; [constructor; cbn; auto; lia|]. cbn. rewrite Ee. auto.
        * eexists _, _, os', [], _, [], true. split; [reflexivity|]. split; [exact Ha'|].
          split; [constructor; cbn; auto; [constructor|lia]|]. cbn. rewrite Ee. auto.
      + destruct D as (Le & Sub & Nn).
        eexists _, _, os', extra, _, q', false. split; [reflexivity|]. split; [exact Ha'|].
        split; [constructor; cbn; auto; lia|]. cbn. auto.
  Qed.

  Lemma returned_le seen : length (returned seen) <= length seen.
  Proof. induction seen as [|[v|] seen IH]; cbn; lia. Qed.

  (** What increments show when they return, if [kept] is what is still to come. *)
  Definition shows (kept : list str) (before : str) (values : list str) : Prop :=
    forall j v, nth_error values j = Some v -> v = nth j kept (last kept before).

  Lemma last_cons (l : list str) w d : last (w :: l) d = last l w.
  Proof. revert w d. induction l as [|x l IH]; intros w d; [reflexivity|]. change (last (w :: x :: l) d) with (last (x :: l) d). now rewrite !IH. Qed.

  Lemma increments_ok base B fuel bs : B < fuel -> forall m os lk it q,
    adds m base (os ++ lk) -> going h os it q B -> (di_index it < 2 ^ 64)%N ->
    exists m' it' seen os' lk' q' kept, increments fuel alloc h m it bs = Ok (m', it', seen) /\
      length seen = length bs /\
      (forall k, nth_error seen k = Some None -> exists n, nth_error bs k = Some (Some n)) /\
      adds m' base (os' ++ lk') /\ going h os' it' q' B /\
      length lk' <= length lk + thrown seen /\
      di_index it' = ((di_index it + N.of_nat (length (returned seen))) mod 2 ^ 64)%N /\
      subsequence kept (enum q) /\ (~ In None seen -> kept = enum q) /\
      shows kept (di_value it) (returned seen).
  Proof using HA.
    intros Hf. induction bs as [|b bs IH]; intros m os lk it q Ha Gq Hi; cbn [increments].
    - exists m, it, [], os, lk, q, (enum q). split; [reflexivity|]. split; [reflexivity|]. split; [intros [|k]; discriminate|].
      split; [exact Ha|]. split; [exact Gq|]. split; [lia|]. split; [cbn; rewrite N.add_0_r, N.mod_small; auto|].
      split; [apply sub_refl|]. split; [auto|]. intros [|j]; discriminate.
    - unfold try_diter_next.
      destruct (@try_diter_advance_ok base B fuel b m os lk it q Ha Gq Hf)
        as (b1 & m1 & os1 & extra & it1 & q1 & done & E & Ha1 & Gq1 & Ix & D). rewrite E. cbn [rbind].
      destruct done.
      + destruct D as (-> & V & En). cbn [app] in Ha1.
        set (it2 := DIter (di_prefixes it1) (di_pending it1) (di_value it1) (wadd (di_index it1) 1)).
        assert (Gq2 : going h os1 it2 q1 B) by (destruct Gq1; constructor; auto).
        assert (Hi2 : (di_index it2 < 2 ^ 64)%N) by (cbn; unfold wadd; apply N.mod_lt; discriminate).
        destruct (IH m1 os1 lk it2 q1 Ha1 Gq2 Hi2)
          as (m' & it' & seen & os' & lk' & q' & kept & E' & Le & Th & Ha' & Gq' & Lk & Ix' & Sub & Al & Sh).
        rewrite E'. cbn [rbind].
        assert (K : exists kept2, subsequence kept2 (enum q) /\ (kept = enum q1 -> kept2 = enum q) /\
                 shows kept2 (di_value it) (di_value it2 :: returned seen)).
        { cbn [it2 di_value] in *. destruct (enum q) as [|w r] eqn:Eq; cbn [next_value tl] in *.
          - rewrite En in Sub. inversion Sub; subst. exists []. split; [constructor|]. split; [auto|].
            intros [|j] v Hj; cbn in Hj; [injection Hj as <-; exact V|]. rewrite V in Sh. apply Sh in Hj. destruct j; exact Hj.
          - exists (w :: kept). rewrite En in *. split; [now constructor|]. split; [congruence|].
            intros [|j] v Hj; cbn in Hj; [injection Hj as <-; exact V|]. rewrite V in Sh. apply Sh in Hj.
            rewrite last_cons. exact Hj. }
        destruct K as (kept2 & K1 & K2 & K3).
        exists m', it', (Some (di_value it2) :: seen), os', lk', q', kept2. split; [reflexivity|]. split; [cbn; lia|].
        split; [intros [|k] Hk; [discriminate|apply Th; exact Hk]|]. split; [exact Ha'|]. split; [exact Gq'|].
        split; [unfold thrown in *; cbn; lia|]. split.
        { rewrite Ix'. cbn [it2 di_index returned length]. rewrite Ix. unfold wadd. change Base.W with (2 ^ 64)%N.
          rewrite N.add_mod_idemp_l by discriminate. f_equal. lia. }
        split; [exact K1|]. split; [|exact K3]. intros Nn. apply K2, Al. intros X. apply Nn. now right.
      + destruct D as (Lx & V & Sub1 & Nb). rewrite app_assoc in Ha1. rewrite <- app_assoc in Ha1.
        destruct (IH m1 os1 (extra ++ lk) it1 q1 Ha1 Gq1 ltac:(now rewrite Ix))
          as (m' & it' & seen & os' & lk' & q' & kept & E' & Le & Th & Ha' & Gq' & Lk & Ix' & Sub & Al & Sh).
        rewrite E'. cbn [rbind].
        exists m', it', (None :: seen), os', lk', q', kept. split; [reflexivity|]. split; [cbn; lia|].
        split; [intros [|k] Hk; [destruct b as [n|]; [exists n; reflexivity|congruence]|apply Th; exact Hk]|].
        split; [exact Ha'|]. split; [exact Gq'|].
        split; [rewrite app_length in Lk; pose proof (returned_le seen); unfold thrown in *; cbn [returned length]; lia|].
        split; [rewrite Ix', Ix; reflexivity|]. split; [eapply sub_trans; eauto|].
        split; [intros Nn; destruct Nn; now left|]. cbn [returned]. now rewrite V in Sh.
  Qed.
End Throw.
