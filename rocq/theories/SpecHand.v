(** * SpecHand: what a history of calls on nodes has made of them. *)
From Verif Require Import Base ModelHand.
Local Open Scope nat_scope.

(** How many nodes have been made, and what they were when they were made. *)
Definition made (hist : list node_call) : list bool := flat_map (fun o => match o with Make b => [b] | _ => [] end) hist.

(** What the node [x] was marked last. *)
Definition marked (hist : list node_call) (x : nat) : option bool :=
  fold_left (fun last o => match o with Mark z b => if z =? x then Some b else last | _ => last end) hist None.

(** Whether the node [x] is final. *)
Definition finality (hist : list node_call) (x : nat) : option bool :=
  match marked hist x with Some b => Some b | None => nth_error (made hist) x end.

(** The node that [x] was linked to last with the label [c]. *)
Definition target (hist : list node_call) (x : nat) (c : char) : option nat :=
  fold_left (fun last o => match o with Link z d y => if (z =? x) && ceqb d c then Some y else last | _ => last end) hist None.

(** The node that [w] leads to from [x]. *)
Fixpoint destination (hist : list node_call) (x : nat) (w : str) : option nat :=
  match w with
  | [] => Some x
  | c :: w' => match target hist x c with Some y => destination hist y w' | None => None end
  end.

(** [y] was what a node was linked to when that node was linked again, with the same
    label. *)
Definition replaced (hist : list node_call) (y : nat) : Prop :=
  exists h1 x c y2 h2, hist = h1 ++ Link x c y2 :: h2 /\ target h1 x c = Some y.

(** The node [x] exists. *)
Definition exists_still (hist : list node_call) (x : nat) : Prop := x < length (made hist) /\ ~ replaced hist x.

(** Only nodes that exist are used.  A node is replaced by another one, not by itself,
    and not by a call on itself; and no other node that exists is linked to it. *)
Definition orderly (hist : list node_call) : Prop :=
  forall h1 o h2, hist = h1 ++ o :: h2 ->
    match o with
    | Make _ => True
    | Mark x _ => exists_still h1 x
    | Link x c y =>
        exists_still h1 x /\ exists_still h1 y /\
        forall old, target h1 x c = Some old ->
          old <> x /\ old <> y /\ forall z d, exists_still h1 z -> target h1 z d = Some old -> z = x /\ d = c
    end.

(** From [x] one can get to a node from which one can get back to it. *)
Definition goes_round (hist : list node_call) (x : nat) : Prop :=
  exists v y c w, destination hist x v = Some y /\ destination hist y (c :: w) = Some y.

(** The terms of the dictionary whose root is [x]. *)
Definition term_of (hist : list node_call) (x : nat) (w : str) : Prop :=
  exists y, destination hist x w = Some y /\ finality hist y = Some true.
