(** * SpecAlphabet: words for C111. *)
From Verif Require Import Base.

(** [f] tells the characters of [l] apart. *)
Definition apart (f : char -> char) (l : str) : Prop := forall c d, In c l -> In d l -> f c = f d -> c = d.

(** [f] keeps the order in which the characters of [l] stand, as signed numbers. *)
Definition keeps_order (f : char -> char) (l : str) : Prop :=
  forall c d, In c l -> In d l -> (schar c < schar d)%Z -> (schar (f c) < schar (f d))%Z.

(** No character of the one occurs in the other. *)
Definition strange (v w : str) : Prop := forall c, In c v -> ~ In c w.

(** The terms of the one list are the strings that [g] makes of the terms of the other. *)
Definition made_by (g : str -> str) (terms terms' : list str) : Prop :=
  forall t, In t terms' <-> exists w, In w terms /\ t = g w.

(** The answers with another spelling, at the same distances. *)
Definition respelled (g : str -> str) (results : list (str * N)) : list (str * N) :=
  map (fun c => (g (fst c), snd c)) results.
