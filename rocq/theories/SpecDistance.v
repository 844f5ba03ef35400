(** * How the distance properties are phrased.

    [answers alg l ds]: making the calls [between(v,w)] listed in [l], in this
    order, on a freshly constructed Distance object of class [alg] terminates
    and the calls return [ds].

    [returns alg v w d]: whatever calls were made on the object before, the
    call [between(v,w)] returns [d]. *)
From Verif Require Import Base Spec ModelDistance.

Definition answers (alg : algorithm) (l : list (str * str)) (ds : list nat) : Prop :=
  exists m, run (calls alg l) [] = Ok (ds, m).

Definition returns (alg : algorithm) (v w : str) (d : nat) : Prop :=
  forall history, exists ds, answers alg (history ++ [(v, w)]) (ds ++ [d]).

(** [d] is the right answer to the call [vw]. *)
Definition correct (alg : algorithm) (vw : str * str) (d : nat) : Prop :=
  edit_distance alg (fst vw) (snd vw) d.
