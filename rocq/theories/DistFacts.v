(** * From [good] programs to the statements in PropsDistance. *)
From Verif Require Import Base Spec ModelDistance AlignProofs DistProofs SpecDistance.

Lemma answers_dists alg l : answers alg l (dists alg l).
Proof.
  destruct (good_run _ _ _ _ [] (calls_good alg l) (memo_ok_nil alg)) as (x & m & H & -> & _).
  exists m; exact H.
Qed.

Lemma answers_fun alg l ds ds' : answers alg l ds -> answers alg l ds' -> ds = ds'.
Proof. intros [m H] [m' H']; rewrite H in H'; injection H'; auto. Qed.

Lemma dists_correct alg l : Forall2 (correct alg) l (dists alg l).
Proof. induction l; constructor; auto. apply dst_edit_distance. Qed.

Lemma answers_correct alg l : exists ds, answers alg l ds /\ Forall2 (correct alg) l ds.
Proof. exists (dists alg l); auto using answers_dists, dists_correct. Qed.

Lemma returns_dst alg v w : returns alg v w (dst alg v w).
Proof.
  intros h. exists (dists alg h).
  replace (dists alg h ++ [dst alg v w]) with (dists alg (h ++ [(v, w)]))
    by (unfold dists; now rewrite map_app).
  apply answers_dists.
Qed.

Lemma returns_iff alg v w d : returns alg v w d <-> d = dst alg v w.
Proof.
  split; [|intros ->; apply returns_dst].
  intros H. destruct (H []) as [ds Hd]. pose proof (answers_dists alg [(v, w)]) as H'.
  simpl app in Hd. assert (E := answers_fun _ _ _ _ Hd H'). simpl in E.
  destruct ds as [|x ds]; simpl in E; [injection E; auto|].
  destruct ds; discriminate.
Qed.

Lemma returns_correct alg v w : exists d, returns alg v w d /\ edit_distance alg v w d.
Proof. exists (dst alg v w); auto using returns_dst, dst_edit_distance. Qed.

Ltac to_dst := repeat match goal with
  | H : returns _ _ _ _ |- _ => apply returns_iff in H
  | |- returns _ _ _ _ => apply returns_iff
  end; subst.

Lemma metric_base alg :
  (forall x, returns alg x x 0) /\
  (forall x y d, returns alg x y d -> x <> y -> d > 0) /\
  (forall x y d, returns alg x y d -> returns alg y x d).
Proof.
  repeat split; intros; to_dst.
  - symmetry; apply dst_refl.
  - assert (dst alg x y <> 0) by (rewrite dst_0; auto). lia.
  - apply dst_sym.
Qed.

Lemma metric_triangle alg x y z p q r : alg <> TRANSPOSITION ->
  returns alg x y p -> returns alg y z q -> returns alg x z r -> r <= p + q.
Proof. intros Ha; intros; to_dst; now apply dst_triangle. Qed.

Lemma pool_correct alg css :
  exists B, forall n m ps, pool_steps n ([], map (calls alg) css) (m, ps) ->
    n <= B /\ length ps = length css /\
    forall i cs, nth_error css i = Some cs ->
      exists p, nth_error ps i = Some p /\
        ((exists ds, p = Ret ds /\ Forall2 (correct alg) cs ds) \/
         (exists m' p', thread_step m p m' p')).
Proof.
  exists (fold_right (fun cs b => calls_bound cs + b) 0 css); intros n m ps H.
  destruct (pool_good_steps alg _ _ _ H _ css (memo_ok_nil alg) (pool_good_init alg css))
    as (Hm & b' & Hb & Hg).
  rewrite Hb at 1. split; [apply Nat.le_add_r|]. simpl in Hg.
  destruct (pool_good_nth _ _ _ _ Hg) as [Hl Hn]. split; auto.
  intros i cs Hi. destruct (Hn _ _ Hi) as (p & k & Hp & Hgp). exists p; split; auto.
  destruct (good_progress _ _ _ _ m Hgp) as [(x & -> & ->)|Hs]; [left|right; auto].
  eexists; split; [reflexivity|apply dists_correct].
Qed.
