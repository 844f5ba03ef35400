(** * SpecAlike: when two dictionaries cannot be told apart. *)
From Verif Require Import Base Spec ModelTransducer ModelDawg ModelQuery.

(** What is asked of the one and of the other has the same outcome: the same answers,
    or both times undefined behaviour, or no end at all. *)
Record alike (h1 : heap) (d1 : dawg) (h2 : heap) (d2 : dawg) : Prop := {
  al_size : d_size d1 = d_size d2;
  al_contains : forall w, contains h1 d1 w = contains h2 d2 w;
  al_iterate : forall fuel, iterate fuel h1 d1 = iterate fuel h2 d2;
  al_hash : forall fuel, dawg_hash fuel h1 d1 = dawg_hash fuel h2 d2;
  al_query : forall R (rt : result_type R) alg fuel q n,
    query_all rt fuel h1 (new_transducer alg (d_root d1)) q n = query_all rt fuel h2 (new_transducer alg (d_root d2)) q n;
}.
