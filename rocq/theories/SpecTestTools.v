(** * SpecTestTools: vocabulary for the helpers of the tests. *)
From Verif Require Import Base ModelTestTools.

(** Digits and letters, except the letter z. *)
Definition drawn (c : char) : Prop :=
  (48 <= uchar c <= 57 \/ 65 <= uchar c <= 90 \/ 97 <= uchar c <= 121)%N.

(** An extension with its dot. *)
Definition dotted (ext : str) : str :=
  match ext with
  | [] => []
  | c :: _ => if ceqb c "." then ext else "."%char :: ext
  end.

(** [located dir name p]: [p] is the path of [name] in the directory [dir]; an absolute
    name stands for itself. *)
Inductive located : str -> str -> str -> Prop :=
| located_absolute : forall dir name, located dir ("/"%char :: name) ("/"%char :: name)
| located_here : forall name, hd_error name <> Some "/"%char -> located [] name name
| located_slash : forall dir name, hd_error name <> Some "/"%char ->
    located (dir ++ ["/"%char]) name (dir ++ "/"%char :: name)
| located_plain : forall dir c name, hd_error name <> Some "/"%char -> c <> "/"%char ->
    located (dir ++ [c]) name (dir ++ c :: "/"%char :: name).

(** What happens while the tests run: they ask for a path, or a file appears or
    disappears. *)
Inductive event := Ask (prefix ext : str) | Create (p : str) | Remove (p : str).

(** [happens rand dir fs t evs names fs' t']: the events [evs] lead from the files
    [fs] to the files [fs'], and [names] are the paths that were handed out. *)
Inductive happens (rand : nat -> N) (dir : str) : files -> tools -> list event -> list str -> files -> tools -> Prop :=
| happens_nil : forall fs t, happens rand dir fs t [] [] fs t
| happens_ask : forall fuel fs t prefix ext p t1 evs names fs' t',
    gen_temp_path fuel rand dir fs prefix ext t = Ok (p, t1) ->
    happens rand dir fs t1 evs names fs' t' -> happens rand dir fs t (Ask prefix ext :: evs) (p :: names) fs' t'
| happens_create : forall fs t p evs names fs' t',
    happens rand dir (p :: fs) t evs names fs' t' -> happens rand dir fs t (Create p :: evs) names fs' t'
| happens_remove : forall fs t p evs names fs' t',
    happens rand dir (remove_file fs p) t evs names fs' t' -> happens rand dir fs t (Remove p :: evs) names fs' t'.

(** ** Reading settings: words separated by blanks, each a name and a value separated
    by the first equals sign. *)
Fixpoint words_of (word : str) (s : str) : list str :=
  match s with
  | [] => match word with [] => [] | _ => [word] end
  | c :: s' =>
      if ceqb c " " then match word with [] => words_of [] s' | _ => word :: words_of [] s' end
      else words_of (word ++ [c]) s'
  end.

Fixpoint name_and_value (w : str) : str * str :=
  match w with
  | [] => ([], [])
  | c :: w' => if ceqb c "=" then ([], w') else let '(n, v) := name_and_value w' in (c :: n, v)
  end.

(** The settings rapidcheck knows that the tests take from their configuration. *)
Definition known_settings : list str :=
  [lit "seed"; lit "max_success"; lit "max_size"; lit "max_discard_ratio"; lit "noshrink";
   lit "verbose_progress"; lit "verbose_shrinking"; lit "reproduce"].

Definition read_settings (s : str) : list (str * str) := map name_and_value (words_of [] s).
