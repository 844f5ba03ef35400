(** * HandMapProofs: making a node with a map of edges is making it and linking it. *)
From Coq Require Import Sorting.Sorted.
From Verif Require Import Base Spec ModelDawg ModelHand ModelHandMap SpecDawg SpecHand SpecHandMap TreeProofs HeapProofs HandProofs.
Local Open Scope nat_scope.

Lemma addresses_ok : forall ps es, (forall c y, In (c, y) es -> y < length ps) -> exists edges, addresses ps es = Ok edges /\
  Forall2 (fun e f => fst e = fst f /\ nth_error ps (snd e) = Some (snd f)) es edges.
Proof.
  intros ps. induction es as [|[c y] es IH]; intros H; [exists []; split; [reflexivity|constructor]|].
  destruct IH as (edges & E & F); [intros; eapply H; right; eauto|]. specialize (H c y (or_introl eq_refl)).
  destruct (nth_error ps y) as [q|] eqn:Q; [|apply nth_error_None in Q; lia]. exists ((c, q) :: edges). cbn [addresses]. rewrite Q. cbn [deref rbind]. rewrite E. split; [reflexivity|].
  constructor; auto.
Qed.

Lemma map_of_sorted : forall A (es m : list (char * A)), esorted m -> esorted (fold_left (fun m e => edge_set m (fst e) (snd e)) es m).
Proof. intros A. induction es as [|[c q] es IH]; intros m S; cbn [fold_left]; [exact S|]. apply IH. now apply edge_set_sorted. Qed.

Lemma map_of_get : forall (ps : list ptr) (es : list (char * nat)) (edges : list (char * ptr)), Forall2 (fun e f => fst e = fst f /\ nth_error ps (snd e) = Some (snd f)) es edges -> forall (m : list (char * ptr)) (last : option nat) c,
  edge_get m c = match last with Some y => nth_error ps y | None => None end ->
  edge_get (fold_left (fun m e => edge_set m (fst e) (snd e)) edges m) c =
  match fold_left (fun last e => if ceqb (fst e) c then Some (snd e) else last) es last with Some y => nth_error ps y | None => None end.
Proof.
  intros ps es edges F. induction F as [|[d y] [d' q] es edges [Ed Q] F IH]; intros m last c E; cbn [fold_left fst snd] in *; [exact E|]. subst d'.
  apply IH. rewrite edge_get_set. destruct (ceqb_spec c d) as [[-> X]|[N X]]; rewrite X.
  - now symmetry.
  - destruct (ceqb_spec d c) as [[-> _]|[_ Y]]; [congruence|]. rewrite Y. exact E.
Qed.

Lemma links_run : forall alloc ps k p f, nth_error ps k = Some p -> p <> null -> forall links m h, hget h p = Some (Node f m) -> esorted m ->
  NoDup (map fst links) -> (forall c y, In (c, y) links -> edge_get m c = None /\ y < length ps) ->
  exists h2 m2, perform_all alloc h ps (map (fun e => Link k (fst e) (snd e)) links) = Ok (h2, ps) /\ hget h2 p = Some (Node f m2) /\ esorted m2 /\
    (forall c y, In (c, y) links -> edge_get m2 c = nth_error ps y) /\ (forall c, ~ In c (map fst links) -> edge_get m2 c = edge_get m c) /\
    (forall q, q <> p -> hget h2 q = hget h q).
Proof.
  intros alloc ps k p f Ek Np. induction links as [|[c y] links IH]; intros m h G S ND H.
  - exists h, m. split; [reflexivity|]. split; [exact G|]. split; [exact S|]. split; [intros c y []|]. split; [reflexivity|reflexivity].
  - destruct (H c y (or_introl eq_refl)) as (Gc & Ly). destruct (nth_error ps y) as [q|] eqn:Q; [|apply nth_error_None in Q; lia].
    cbn [map fst] in ND. inversion ND as [|? ? Nc ND']; subst.
    destruct (IH (edge_set m c q) (hset h p (Node f (edge_set m c q)))) as (h2 & m2 & E & G2 & S2 & I2 & O2 & R2).
    + apply hget_hset_same.
    + now apply edge_set_sorted.
    + exact ND'.
    + intros d z J. destruct (H d z (or_intror J)) as (Gd & Lz). split; [|exact Lz]. rewrite edge_get_set. destruct (ceqb_spec d c) as [[-> _]|[_ X]]; [|now rewrite X].
      destruct Nc. apply in_map_iff. exists (c, z). auto.
    + exists h2, m2. split.
      * cbn [map fst snd perform_all perform]. rewrite Ek, Q. cbn [deref rbind]. unfold add_edge. rewrite (read_ok _ _ _ Np G). cbn [rbind]. unfold transition. cbn [nedges nfin]. rewrite Gc.
        unfold delete. rewrite N.eqb_refl. cbn [rbind]. rewrite (read_ok _ _ _ Np G). cbn [rbind nedges nfin]. exact E.
      * split; [exact G2|]. split; [exact S2|]. split; [|split].
        -- intros d z [J|J]; [injection J as <- <-|now apply I2]. rewrite (O2 c Nc), edge_get_set, ceqb_refl. now symmetry.
        -- intros d J. cbn [map fst In] in J. rewrite O2 by tauto. rewrite edge_get_set. destruct (ceqb_spec d c) as [[-> _]|[_ X]]; [tauto|now rewrite X].
        -- intros r Nr. rewrite R2 by exact Nr. now apply hget_hset_other.
Qed.

Lemma perform_some : forall alloc h0 os hist h ps, allocator alloc -> orderly (hist ++ os) -> stands h0 hist h ps ->
  exists h' ps', perform_all alloc h ps os = Ok (h', ps') /\ stands h0 (hist ++ os) h' ps'.
Proof.
  intros alloc h0. induction os as [|o os IH]; intros hist h ps A O St; [exists h, ps; rewrite app_nil_r; auto|].
  replace (hist ++ o :: os) with ((hist ++ [o]) ++ os) in * by (rewrite <- app_assoc; reflexivity).
  assert (O1 : orderly (hist ++ [o])) by (intros a b c E; apply (O a b (c ++ os)); rewrite E, <- app_assoc; reflexivity).
  destruct (perform_ok alloc h0 hist h ps o A O1 St) as (h1 & ps1 & E1 & St1). destruct (IH _ h1 ps1 A O St1) as (h2 & ps2 & E2 & St2).
  exists h2, ps2. split; [|exact St2]. cbn [perform_all]. rewrite E1. exact E2.
Qed.

Lemma made_app : forall a b, made (a ++ b) = made a ++ made b.
Proof. intros. unfold made. now rewrite flat_map_app. Qed.

Lemma made_links : forall k links, made (map (fun e : char * nat => Link k (fst e) (snd e)) links) = [].
Proof. intros k. induction links; [reflexivity|]. exact IHlinks. Qed.

Lemma map_step : forall alloc h0 hist h ps es b links, allocator alloc -> stands h0 hist h ps ->
  let k := length (made hist) in let os := Make b :: map (fun e => Link k (fst e) (snd e)) links in
  orderly (hist ++ os) -> (forall c y, In (c, y) es -> y < k) -> NoDup (map fst links) -> (forall c y, In (c, y) links <-> assigned es c = Some y) ->
  exists h' ps', perform_any alloc h ps (MakeWith es b) = Ok (h', ps') /\ stands h0 (hist ++ os) h' ps'.
Proof.
  intros alloc h0 hist h ps es b links A St k os O Le ND Ia. pose proof (st_len _ _ _ _ St) as Ln. fold k in Ln.
  destruct (addresses_ok ps es) as (edges & Ea & Fa); [rewrite Ln; exact Le|].
  destruct (A h) as (Np & Fr). set (p := alloc h) in *. exists (hset h p (Node b (map_of edges))), (ps ++ [p]). split; [unfold perform_any; rewrite Ea; reflexivity|].
  destruct (perform_some alloc h0 os hist h ps A O St) as (h2 & ps2 & E2 & St2).
  unfold os in E2. cbn [perform_all perform] in E2. fold p in E2. cbn [rbind] in E2.
  assert (Ek : nth_error (ps ++ [p]) k = Some p) by (rewrite nth_error_app2 by lia; replace (k - length ps) with 0 by lia; reflexivity).
  assert (Last : forall c y l last, fold_left (fun last (e : char * nat) => if ceqb (fst e) c then Some (snd e) else last) l last = Some y -> last = Some y \/ In (c, y) l).
  { intros c y. induction l as [|[d z] l IH]; intros last X; cbn [fold_left fst snd] in X; [now left|]. apply IH in X. destruct X as [X|X]; [|right; now right].
    destruct (ceqb_spec d c) as [[-> Y]|[_ Y]]; rewrite Y in X; [injection X as ->; right; now left|now left]. }
  assert (Lt : forall c y, assigned es c = Some y -> y < k).
  { intros c y X. destruct (Last c y es None X) as [Y|Y]; [discriminate|]. exact (Le c y Y). }
  destruct (links_run alloc (ps ++ [p]) k p b Ek Np links [] (hset h p (Node b []))) as (h3 & m3 & E3 & G3 & S3 & I3 & O3 & R3).
  { apply hget_hset_same. } { constructor. } { exact ND. }
  { intros c y J. split; [reflexivity|]. rewrite app_length. cbn [length]. apply Ia, Lt in J. lia. }
  rewrite E3 in E2. injection E2 as <- <-.
  assert (Gm : forall c, edge_get (map_of edges) c = edge_get m3 c).
  { intros c. unfold map_of. rewrite (map_of_get ps es edges Fa [] None c eq_refl). fold (assigned es c). destruct (assigned es c) as [y|] eqn:X.
    - rewrite (I3 c y) by (now apply Ia). symmetry. apply nth_error_app1. apply Lt in X. lia.
    - rewrite O3; [reflexivity|]. intros J. apply in_map_iff in J. destruct J as ([d z] & Ed & J). cbn [fst] in Ed. subst d. apply Ia in J. congruence. }
  assert (Same : forall q, q <> p -> hget (hset h p (Node b (map_of edges))) q = hget h3 q).
  { intros q Nq. rewrite (R3 q Nq), !hget_hset_other by exact Nq. reflexivity. }
  constructor.
  - exact (st_len _ _ _ _ St2).
  - intros x Ex. destruct (st_node _ _ _ _ St2 x Ex) as (q & n & E1 & E2' & E3' & E4 & E5 & E6 & E7). destruct (N.eq_dec q p) as [->|Nq].
    + rewrite G3 in E4. injection E4 as <-. exists p, (Node b (map_of edges)). split; [exact E1|]. split; [exact E2'|]. split; [exact E3'|]. split; [apply hget_hset_same|].
      split; [exact E5|]. split; [apply map_of_sorted; constructor|]. intros c. specialize (E7 c). cbn [nedges] in *. rewrite Gm. exact E7.
    + exists q, n. split; [exact E1|]. split; [exact E2'|]. split; [exact E3'|]. split; [rewrite Same; auto|]. auto.
  - exact (st_inj _ _ _ _ St2).
  - intros q Nx. pose proof (st_others _ _ _ _ St2 q Nx) as X. destruct (N.eq_dec q p) as [->|Nq]; [|rewrite Same; auto].
    exfalso. rewrite G3 in X. assert (Y : hget h p = hget h0 p).
    { apply (st_others _ _ _ _ St). intros x Sx Q. destruct (st_node _ _ _ _ St x Sx) as (r & n & R1 & _ & _ & R4 & _). congruence. }
    congruence.
Qed.

Lemma plain_case : forall alloc h0 done o hist plain h ps, allocator alloc -> orderly (done ++ o :: plain) -> stands h0 done h ps ->
  (forall h1 ps1, orderly ((done ++ [o]) ++ plain) -> stands h0 (done ++ [o]) h1 ps1 ->
     exists h' ps', perform_any_all alloc h1 ps1 hist = Ok (h', ps') /\ stands h0 ((done ++ [o]) ++ plain) h' ps') ->
  exists h' ps', perform_any_all alloc h ps (Plain o :: hist) = Ok (h', ps') /\ stands h0 (done ++ o :: plain) h' ps'.
Proof.
  intros alloc h0 done o hist plain h ps A O St IH. replace (done ++ o :: plain) with ((done ++ [o]) ++ plain) in * by (rewrite <- app_assoc; reflexivity).
  assert (O1 : orderly (done ++ [o])) by (intros a1 b1 c1 E; apply (O a1 b1 (c1 ++ plain)); rewrite E, <- app_assoc; reflexivity).
  destruct (perform_ok alloc h0 done h ps o A O1 St) as (h1 & ps1 & E1 & St1). destruct (IH h1 ps1 O St1) as (h2 & ps2 & E2 & St2).
  exists h2, ps2. split; [cbn [perform_any_all perform_any]; rewrite E1; exact E2|exact St2].
Qed.

Lemma perform_any_ok : forall alloc h0 k hist plain, plainly k hist plain -> allocator alloc -> forall done h ps, k = length (made done) -> orderly (done ++ plain) -> stands h0 done h ps ->
  exists h' ps', perform_any_all alloc h ps hist = Ok (h', ps') /\ stands h0 (done ++ plain) h' ps'.
Proof.
  intros alloc h0 k hist plain P A. induction P as [k|k b hist plain P IH|k x b hist plain P IH|k x c y hist plain P IH|k es b links hist plain Le ND Ia P IH]; intros done h ps Ek O St.
  1: { exists h, ps. rewrite app_nil_r. auto. }
  1,2,3: apply plain_case; auto; intros h1 ps1 O1 St1; apply IH; auto; rewrite made_app, app_length; cbn; lia.
  set (os := Make b :: map (fun e => Link k (fst e) (snd e)) links).
  replace (done ++ Make b :: map (fun e => Link k (fst e) (snd e)) links ++ plain) with ((done ++ os) ++ plain) in * by (unfold os; rewrite <- app_assoc; reflexivity).
  assert (O1 : orderly (done ++ os)) by (intros a1 b1 c1 E; apply (O a1 b1 (c1 ++ plain)); rewrite E, <- app_assoc; reflexivity).
  unfold os in *. subst k. destruct (map_step alloc h0 done h ps es b links A St O1 Le ND Ia) as (h1 & ps1 & E1 & St1).
  destruct (IH (done ++ Make b :: map (fun e => Link (length (made done)) (fst e) (snd e)) links) h1 ps1) as (h2 & ps2 & E2 & St2); [|exact O|exact St1|].
  - rewrite made_app, app_length. cbn [made flat_map app]. fold (made (map (fun e : char * nat => Link (length (made done)) (fst e) (snd e)) links)). rewrite made_links. cbn. lia.
  - exists h2, ps2. split; [cbn [perform_any_all]; rewrite E1; exact E2|exact St2].
Qed.

Lemma plainly_plain : forall hist k, plainly k (map Plain hist) hist.
Proof. induction hist as [|[b|x b|x c y] hist IH]; intros k; cbn [map]; constructor; apply IH. Qed.

Lemma plain_all : forall alloc hist h ps, perform_any_all alloc h ps (map Plain hist) = perform_all alloc h ps hist.
Proof. intros alloc. induction hist as [|o hist IH]; intros h ps; [reflexivity|]. cbn [map perform_any_all perform_any perform_all]. destruct (perform alloc h ps o) as [[h1 ps1]| |]; cbn [rbind]; auto. Qed.

Lemma any_ok : forall alloc h0 calls hist, allocator alloc -> plainly 0 calls hist -> orderly hist ->
  exists h ps, perform_any_all alloc h0 [] calls = Ok (h, ps) /\ stands h0 hist h ps.
Proof. intros alloc h0 calls hist A P O. exact (perform_any_ok alloc h0 0 calls hist P A [] h0 [] eq_refl O (stands_nil h0)). Qed.
