(** * ModelTestTools: the helpers of the project's own tests.

    Models test/liblevenshtein/test/utils/file_utils.cpp and
    test/liblevenshtein/config/rapidcheck_parser.cpp. *)
From Verif Require Import Base.

(** ** file_utils.cpp *)

(** file_utils.cpp:16-18. *)
Definition charset : str :=
  lit "0123456789" ++ lit "ABCDEFGHIJKLMNOPQRSTUVWXYZ" ++ lit "abcdefghijklmnopqrstuvwxyz".

(** The lambda randchar (file_utils.cpp:15-21), for a result [r] of rand(). *)
Definition randchar (r : N) : char :=
  let max_index := (N.of_nat (length charset) - 1)%N in
  nth (N.to_nat (r mod max_index)) charset "000"%char.

(** gen_rand_str (file_utils.cpp:14-25).  [rand k] is what the [k]th call of rand()
    returns; the result comes with the number of the next call. *)
Fixpoint gen_rand_str (rand : nat -> N) (k len : nat) : str * nat :=
  match len with
  | O => ([], k)
  | S len' => let '(s, k') := gen_rand_str rand (S k) len' in (randchar (rand k) :: s, k')
  end.

(** file_utils.cpp:37-41.  find_first_of('.') != 0: the first character of [ext] is
    not a dot. *)
Definition file_nym (prefix rand_str ext : str) : str :=
  match ext with
  | [] => prefix ++ rand_str ++ ext
  | c :: _ => if ceqb c "." then prefix ++ rand_str ++ ext else prefix ++ rand_str ++ lit "." ++ ext
  end.

(** std::filesystem::path::operator/ as in file_utils.cpp:42: an absolute second
    operand replaces the first, and a separator is added unless there is one.
    Paths are strings. *)
Definition join (dir name : str) : str :=
  match name with
  | c :: _ => if ceqb c "/" then name
              else match rev dir with
                   | [] => name
                   | d :: _ => if ceqb d "/" then dir ++ name else dir ++ lit "/" ++ name
                   end
  | [] => match rev dir with
          | [] => []
          | d :: _ => if ceqb d "/" then dir else dir ++ lit "/"
          end
  end.

(** The files there are.  There are no directories or links in the model. *)
Definition files := list str.
Definition exists_file (fs : files) (p : str) : bool := existsb (str_eqb p) fs.
Definition remove_file (fs : files) (p : str) : files := filter (fun q => negb (str_eqb p q)) fs.

(** What the process remembers: the static vector gend_paths, the next call of
    rand(), and how often the handler was registered with atexit. *)
Record tools := Tools { gend_paths : list str; next_rand : nat; handlers : nat }.
Definition tools_start : tools := Tools [] 0 0.

(** The loop of gen_temp_path (file_utils.cpp:34-43). *)
Fixpoint temp_nym (fuel : nat) (rand : nat -> N) (dir : str) (fs : files) (prefix ext : str) (k : nat)
  : res (str * nat) :=
  match fuel with
  | O => OOF
  | S fuel' =>
      let '(rand_str, k1) := gen_rand_str rand k 10 in
      let nym := join dir (file_nym prefix rand_str ext) in
      if exists_file fs nym then temp_nym fuel' rand dir fs prefix ext k1 else Ok (nym, k1)
  end.

(** gen_temp_path (file_utils.cpp:27-57); fs::temp_directory_path() is [dir]. *)
Definition gen_temp_path (fuel : nat) (rand : nat -> N) (dir : str) (fs : files) (prefix ext : str) (t : tools)
  : res (str * tools) :=
  do (nym, k1) <- temp_nym fuel rand dir fs prefix ext (next_rand t);
  let paths := gend_paths t ++ [nym] in
  Ok (nym, Tools paths k1 (if Nat.eqb (length paths) 1 then S (handlers t) else handlers t)).

(** The handler (file_utils.cpp:47-53). *)
Definition remove_gend (paths : list str) (fs : files) : files :=
  fold_left (fun fs p => if exists_file fs p then remove_file fs p else fs) paths fs.

(** The end of the program: every registered handler runs. *)
Fixpoint at_exit (n : nat) (paths : list str) (fs : files) : files :=
  match n with
  | O => fs
  | S n' => at_exit n' paths (remove_gend paths fs)
  end.

(** ** rapidcheck_parser.cpp *)

(** The settings in the order of rapidcheck_parser.cpp:23-54. *)
Definition setting_names : list str :=
  [lit "seed"; lit "max_success"; lit "max_size"; lit "max_discard_ratio"; lit "noshrink";
   lit "verbose_progress"; lit "verbose_shrinking"; lit "reproduce"].

(** RapidCheckParser::parse (rapidcheck_parser.cpp:18-57).  The YAML file maps names
    to scalars; reading it belongs to yaml-cpp. *)
Definition parse (config : str -> option str) : str :=
  flat_map (fun name => match config name with Some value => name ++ lit "=" ++ value ++ lit " " | None => [] end) setting_names.
