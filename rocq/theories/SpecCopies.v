(** * SpecCopies: what a client means who thinks of values only.

    A string is its characters.  What the transducer returns stands for the string
    as it was when it was asked for, and a query for that string, the distance, and
    how often it was incremented. *)
From Verif Require Import Base ModelCopies.
Local Open Scope nat_scope.

Inductive value :=
| AString (s : str)
| AFound (q : str) (n : N)
| AQuery (q : str) (n : N) (k : nat).

Definition valid (l : list (option value)) (i : nat) : option value :=
  match nth_error l i with Some (Some v) => Some v | _ => None end.

(** [None]: the client used an object that is gone, or one of another type. *)
Definition mean (l : list (option value)) (c : command) : option (list (option value)) :=
  match c with
  | NewString s => Some (l ++ [Some (AString s)])
  | Assign i s => match valid l i with Some (AString _) => Some (put l i (Some (AString s))) | _ => None end
  | Ask i n => match valid l i with Some (AString s) => Some (l ++ [Some (AFound s n)]) | _ => None end
  | CopyOf i => match valid l i with
                | Some (AString s) => Some (l ++ [Some (AString s)])
                | Some (AFound q n) => Some (l ++ [Some (AFound q n)])
                | _ => None
                end
  | Begin i => match valid l i with Some (AFound q n) => Some (l ++ [Some (AQuery q n 0)]) | _ => None end
  | Next i => match valid l i with Some (AQuery q n k) => Some (put l i (Some (AQuery q n (S k)))) | _ => None end
  | Destroy i => match valid l i with Some _ => Some (put l i None) | None => None end
  end.

Fixpoint mean_all (l : list (option value)) (cs : list command) : option (list (option value)) :=
  match cs with
  | [] => Some l
  | c :: cs => match mean l c with Some l' => mean_all l' cs | None => None end
  end.
