(** * SpecDemo: vocabulary for statements about the example program. *)
From Coq Require DecimalString.
From Verif Require Import Base Spec ModelTransducer ModelDawg ModelSerial ModelWire SpecWire SpecDawg SpecQuery ModelDemo.
Local Open Scope N_scope.

(** ** Text *)

Definition one_line (l : str) : Prop := ~ In newline l.

(** Every line followed by a newline. *)
Definition unlines (ls : list str) : str := flat_map (fun l => l ++ [newline]) ls.

(** [text] consists of the lines [ls]; the newline after the last one may be
    missing if that line is not empty. *)
Definition has_lines (text : str) (ls : list str) : Prop :=
  (forall l, In l ls -> one_line l) /\
  (text = unlines ls \/ exists front l, ls = front ++ [l] /\ l <> [] /\ text = unlines front ++ l).

(** The lines of a file, none if there is no file. *)
Definition file_lines (file : option (list byte)) (ls : list str) : Prop :=
  match file with None => ls = [] | Some bytes => has_lines (map ascii_of_N bytes) ls end.

(** The user types the queries [qs], each followed by a newline, and then an empty
    line (and perhaps more), or the input ends. *)
Definition types (stdin : str) (qs : list str) : Prop :=
  (forall q, In q qs -> q <> [] /\ one_line q) /\
  (stdin = unlines qs \/ exists more, stdin = unlines qs ++ newline :: more).

(** The user types the queries [qs] and the last one, [q], which is not empty, is
    not followed by a newline. *)
Definition types_and_leaves (stdin : str) (qs : list str) (q : str) : Prop :=
  (forall p, In p (qs ++ [q]) -> p <> [] /\ one_line p) /\ stdin = unlines qs ++ q.

(** Lengths the program can handle (see [within_limits]). *)
Definition sizes_fit (terms qs : list str) : Prop :=
  (forall q, In q qs -> N.of_nat (length q) <= INT_MAX) /\
  (forall t, In t terms -> N.of_nat (length t) < 2 ^ 62).

(** ** Answers *)

(** The answers to one query: each of the terms within the distance once, with
    its distance, in iteration order. *)
Definition right_answers (alg : algorithm) (n : N) (terms : list str) (q : str) (out : list answer) : Prop :=
  sorted_by shortlex_lt (map (fun a => snd (fst a)) out) /\
  forall q' w k, In (q', w, k) out <-> q' = q /\ In w terms /\ edit_distance alg q w (N.to_nat k) /\ k <= n.

(** The answers to the queries one after the other. *)
Definition prints (o : options) (terms qs : list str) (out : list answer) : Prop :=
  exists parts, Forall2 (right_answers (o_algorithm o) (o_max_distance o) terms) qs parts /\ out = concat parts.

(** ** Runs *)

(** Everything a run depends on. *)
Record setting := Setting {
  s_alloc : heap -> ptr; s_size : N; s_split : list byte -> list (list byte); s_opens : bool; s_room : N;
  s_files : disk; s_args : list str; s_stdin : str }.

Definition run (s : setting) (fuel : nat) : res outcome :=
  demo fuel (s_alloc s) (s_size s) (s_split s) (s_opens s) (s_room s) (s_files s) (s_args s) (s_stdin s).

Definition sensible (s : setting) : Prop := allocator (s_alloc s) /\ splitter (s_split s).

(** The number of characters. *)
Definition characters (terms : list str) : N := N.of_nat (length (concat terms)).

(** The dictionary can be saved: the file can be written, and even if every
    number took the most bytes it can take, there is room and protobuf does not
    refuse. *)
Definition can_save (s : setting) (terms : list str) (r : outcome) : Prop :=
  s_opens s = true /\ addresses_fit (saved_from r) /\
  50 * characters terms + 64 <= s_room s /\ 50 * characters terms + 64 <= INT_MAX.

(** [saved path terms fs]: the files [fs] are what is left by runs of the program
    of which the first one found nothing readable at [path] and had a dictionary
    file with the lines [terms]; every run had [path] as its serialization path
    and could save the dictionary; other files may have changed in between. *)
Inductive saved (path : str) (terms : list str) : disk -> Prop :=
| saved_first : forall s o qs r, sensible s -> parse_opts (s_files s) (s_args s) = inl o ->
    o_serialization o = path -> parse_from (s_files s path) = Ok None ->
    file_lines (s_files s (o_dictionary o)) terms ->
    types (s_stdin s) qs -> sizes_fit terms qs ->
    runs_to (run s) r -> can_save s terms r -> saved path terms (files r)
| saved_again : forall s o qs r, saved path terms (s_files s) -> sensible s ->
    parse_opts (s_files s) (s_args s) = inl o -> o_serialization o = path ->
    types (s_stdin s) qs -> sizes_fit terms qs ->
    runs_to (run s) r -> can_save s terms r -> saved path terms (files r)
| saved_elsewhere : forall fs fs', saved path terms fs -> fs' path = fs path -> saved path terms fs'.

(** The program goes on for ever: it does not end, and does not fail either. *)
Definition runs_forever {A : Type} (f : nat -> res A) : Prop :=
  (forall fuel a, f fuel <> Ok a) /\ exists enough, forall fuel, (enough <= fuel)%nat -> f fuel = OOF.

(** ** Command lines *)

(** The decimal digits of a number. *)
Definition decimal (n : N) : str := lit (DecimalString.NilZero.string_of_uint (N.to_uint n)).

(** What can be said on the command line. *)
Inductive option_given :=
| GivenDictionary (path : str)
| GivenSerialization (path : str)
| GivenAlgorithm (a : algorithm)
| GivenDistance (n : N).

Definition algorithm_name (a : algorithm) : str :=
  match a with
  | STANDARD => lit "--standard"
  | TRANSPOSITION => lit "--transposition"
  | MERGE_AND_SPLIT => lit "--merge-and-split"
  end.

Definition said (g : option_given) : list str :=
  match g with
  | GivenDictionary p => [lit "--dictionary-path"; p]
  | GivenSerialization p => [lit "--serialization-path"; p]
  | GivenAlgorithm a => [algorithm_name a]
  | GivenDistance n => [lit "--max-distance"; decimal n]
  end.

(** The last of the values found, if any. *)
Definition last_or {A : Type} (find : option_given -> option A) (default : A) (gs : list option_given) : A :=
  last (flat_map (fun g => match find g with Some a => [a] | None => [] end) gs) default.

(** Arguments that consist of options with the right number of values, whatever
    these are. *)
Inductive well_formed_args : list str -> Prop :=
| args_nil : well_formed_args []
| args_algorithm : forall a args, well_formed_args args -> well_formed_args (algorithm_name a :: args)
| args_value : forall name value args,
    In name [lit "--dictionary-path"; lit "--serialization-path"; lit "--max-distance"] ->
    well_formed_args args -> well_formed_args (name :: value :: args).

(** Texts for a number: white space, the value of a digit, the value of a
    sequence of digits. *)
Definition blank (c : char) : Prop := In (N_of_ascii c) [32; 9; 10; 11; 12; 13].
Definition digit (c : char) (k : N) : Prop :=
  In (c, k) [("0", 0); ("1", 1); ("2", 2); ("3", 3); ("4", 4); ("5", 5); ("6", 6); ("7", 7); ("8", 8); ("9", 9)]%char.
Inductive numeral : str -> N -> Prop :=
| numeral_nil : numeral [] 0
| numeral_snoc : forall s n c k, numeral s n -> digit c k -> numeral (s ++ [c]) (10 * n + k).

(** [reads v old n]: a variable with value [old] has value [n] after an attempt to
    read a number from the text [v]. *)
Inductive reads : str -> N -> N -> Prop :=
| reads_nothing : forall v old, Forall blank v -> reads v old old
| reads_number : forall blanks sign ds rest old n,
    Forall blank blanks -> In sign [[]; lit "+"; lit "-"] -> numeral ds n ->
    (forall c k, hd_error rest = Some c -> ~ digit c k) ->
    (sign = [] -> ds = [] -> exists c, hd_error rest = Some c /\ ~ blank c /\ c <> "+"%char /\ c <> "-"%char) ->
    reads (blanks ++ sign ++ ds ++ rest) old
      (if n <? 2 ^ 64 then (if str_eqb sign (lit "-") then (2 ^ 64 - n) mod 2 ^ 64 else n) else 2 ^ 64 - 1).
