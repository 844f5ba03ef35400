(** * ModelText: the texts that the library and the example program print. *)
From Coq Require Import Strings.String.
From Verif Require Import Base Spec ModelDistance ModelTransducer ModelDawg ModelSerial ModelWire ModelQuery ModelDemo.
Local Open Scope N_scope.
Notation length := List.length.

Definition quote : char := """"%char.
Definition backslash : char := "092"%char.
(** [std::endl]. *)
Definition endl : str := [newline].

(** [out << n] for a size_t: the last digit comes from [n % 10].  Twenty digits are
    enough for 64 bits. *)
Fixpoint show_digits (fuel : nat) (n : N) (acc : str) : str :=
  match fuel with
  | O => acc
  | S fuel' =>
      let acc' := ascii_of_N (48 + n mod 10) :: acc in
      if n <? 10 then acc' else show_digits fuel' (n / 10) acc'
  end.
Definition show_size (n : N) : str := show_digits 20 n [].

(** [out << path] for a std::filesystem::path: std::quoted. *)
Definition show_path (p : str) : str :=
  [quote] ++ flat_map (fun c => if ceqb c quote || ceqb c backslash then [backslash; c] else [c]) p ++ [quote].

(** ** The library *)

(** operator<< of a SymmetricPair (symmetric_pair.cpp:23-28). *)
Definition show_pair (k : key) : str :=
  lit "SymmetricPair{first=""" ++ fst k ++ lit """, second=""" ++ snd k ++ lit """}".

(** operator<< of a DawgNode (dawg_node.cpp:77-89). *)
Definition show_edge (e : char * ptr) : str := lit "'" ++ [fst e] ++ lit "':DawgNode{...}".
Fixpoint show_edges (index : nat) (es : list (char * ptr)) : str :=
  match es with
  | [] => []
  | e :: es' => (match index with O => [] | _ => lit ", " end) ++ show_edge e ++ show_edges (S index) es'
  end.
Definition show_node (n : node) : str :=
  lit "DawgNode{is_final=" ++ (if nfin n then lit "true" else lit "false") ++ lit ", edges={" ++
  show_edges 0 (nedges n) ++ lit "}}".

(** [out << p] for a pointer: libstdc++ writes the address with base 16 and lower-case
    letters, and 0x before it unless it is 0.  Sixteen digits are enough for 64 bits. *)
Definition hex_char (k : N) : char := ascii_of_N (if k <? 10 then 48 + k else 87 + k).
Fixpoint show_hex (fuel : nat) (n : N) (acc : str) : str :=
  match fuel with
  | O => acc
  | S fuel' =>
      let acc' := hex_char (n mod 16) :: acc in
      if n <? 16 then acc' else show_hex fuel' (n / 16) acc'
  end.
Definition show_pointer (p : ptr) : str :=
  if p =? 0 then lit "0" else lit "0x" ++ show_hex 16 p [].

(** operator<< of a Dawg (dawg.cpp:67-70). *)
Definition show_dawg (d : dawg) : str :=
  lit "Dawg{size=" ++ show_size (d_size d) ++ lit ", root=" ++ show_pointer (d_root d) ++ lit "}".

(** ** The example program: std::cout *)

(** CommandLine::print_config (command_line.cpp:132-149). *)
Definition show_config (o : options) : str :=
  lit "Using configuration:" ++ endl ++
  lit "  dictionary-path: " ++ show_path (o_dictionary o) ++ endl ++
  lit "  serialization-path: " ++ show_path (o_serialization o) ++ endl ++
  lit "  algorithm: " ++
  match o_algorithm o with
  | STANDARD => lit "standard"
  | TRANSPOSITION => lit "transposition"
  | MERGE_AND_SPLIT => lit "merge-and-split"
  end ++ endl ++
  lit "  max-distance: " ++ show_size (o_max_distance o) ++ endl.

(** A candidate of query<Type> (main.cpp:32-33). *)
Definition show_answer (a : answer) : str :=
  let '(q, term, distance) := a in
  lit "d(""" ++ q ++ lit """, """ ++ term ++ lit """) = " ++ show_size distance ++ endl.

(** prompt (main.cpp:51-53). *)
Definition show_prompt : str :=
  endl ++ lit "Enter a query term (or nothing to exit)." ++ endl ++ lit "query> ".

(** The loop of main (main.cpp:91-107); compare [prompt_loop]. *)
Fixpoint prompt_text (rounds fuel : nat) (h : heap) (d : dawg) (o : options) (s : istream) (query_term : str)
  : res str :=
  match rounds with
  | O => OOF
  | S rounds' =>
      let (s', q) := getline s query_term in
      match q with
      | [] => Ok show_prompt
      | _ =>
          do now <- answer_query fuel h d o q;
          do later <- prompt_text rounds' fuel h d o s' q;
          Ok (show_prompt ++ flat_map show_answer now ++ later)
      end
  end.

(** ** The example program: std::cerr *)

Definition lines (ls : list String.string) : str := flat_map (fun l => lit l ++ endl) ls.

(** CommandLine::print_help (command_line.cpp:107-130). *)
Definition help : str := lines [
  "liblevenshtein-demo :: Interactively queries a dictionary using the";
  "configuration specified at the comand-line. Either a valid --dictionary-path or";
  "a --serialization-path must be provided.";
  "--------------------------------------------------------------------------------";
  "  -h|--help                    Prints this help text.";
  "  --dictionary-path <PATH>     Path to the dictionary text file (one term per";
  "                               line).";
  "  --serialization-path <PATH>  Path to the file containing the serialized";
  "                               dictionary.";
  "  --standard                   [Optional] Use the standard Levenshtein distance ";
  "                               (substitutions, insertions, and deletions).";
  "  --transposition              [Optional] Use the standard Levenshtein distance";
  "                               extended with transposition.";
  "  --merge-and-split            [Optional] Use the standard Levenshtein distance";
  "                               extended with merge and split.";
  "  --max-distance <VALUE>       Maximum edit distance from the query term for ";
  "                               spelling candidates (default: 2).";
  "";
  "Examples:";
  "";
  "  ./liblevenshtein-demo --dictionary-path ../programming-languages.txt \";
  "                        --serialization-path programming-languages.pb" ]%string.

(** What CommandLine::parse_opts prints (command_line.cpp:34-101); compare
    [parse_args] and [parse_opts]. *)
Fixpoint args_text (fs : disk) (o : options) (args : list str) : str :=
  match args with
  | [] =>
      if negb (exists_file fs (o_dictionary o)) && negb (exists_file fs (o_serialization o)) then
        lit "Either --dictionary-path=<PATH> or --serialization-path=<PATH> must exist" ++ endl ++
        lit "--dictionary-path=" ++ show_path (o_dictionary o) ++ endl ++
        lit "--serialization-path=" ++ show_path (o_serialization o) ++ endl
      else []
  | arg :: rest =>
      if str_eqb arg (lit "-h") || str_eqb arg (lit "--help") then help
      else if str_eqb arg (lit "--dictionary-path") then
        match rest with
        | [] => lit "Not enough command-line args!" ++ endl
        | p :: rest' =>
            if exists_file fs p
            then args_text fs (Options p (o_serialization o) (o_algorithm o) (o_max_distance o)) rest'
            else lit "--dictionary-path=<PATH> must exist!" ++ endl ++
                 lit "--dictionary-path=" ++ show_path p ++ endl
        end
      else if str_eqb arg (lit "--serialization-path") then
        match rest with
        | [] => lit "Not enough command-line args!" ++ endl
        | p :: rest' => args_text fs (Options (o_dictionary o) p (o_algorithm o) (o_max_distance o)) rest'
        end
      else if str_eqb arg (lit "--standard") then
        args_text fs (Options (o_dictionary o) (o_serialization o) STANDARD (o_max_distance o)) rest
      else if str_eqb arg (lit "--transposition") then
        args_text fs (Options (o_dictionary o) (o_serialization o) TRANSPOSITION (o_max_distance o)) rest
      else if str_eqb arg (lit "--merge-and-split") then
        args_text fs (Options (o_dictionary o) (o_serialization o) MERGE_AND_SPLIT (o_max_distance o)) rest
      else if str_eqb arg (lit "--max-distance") then
        match rest with
        | [] => lit "Not enough command-line args!" ++ endl
        | v :: rest' =>
            args_text fs (Options (o_dictionary o) (o_serialization o) (o_algorithm o)
                            (read_size v (o_max_distance o))) rest'
        end
      else lit "Invalid argument: " ++ arg ++ endl ++ help
  end.

(** ** main (main.cpp:58-120): what is on std::cout and std::cerr at the end;
    compare [demo]. *)
Definition demo_text (fuel : nat) (alloc : heap -> ptr) (size : N) (split : list byte -> list (list byte))
  (opens : bool) (room : N) (fs : disk) (args : list str) (stdin : str) : res (str * str) :=
  let err := args_text fs default_options args in
  match parse_opts fs args with
  | inr _ => Ok ([], err)
  | inl o =>
      do (h, restored) <- deserialize_file alloc [] (fs (o_serialization o));
      do (h1, dictionary) <-
        match restored with
        | Some b => Ok (h, Some b)
        | None =>
            do terms <- dictionary_terms fuel (fs (o_dictionary o));
            sorted_dawg fuel alloc h (sort_terms terms)
        end;
      match dictionary with
      | None => UB
      | Some b =>
          do out <- prompt_text fuel fuel h1 (b_dawg b) o (IStream stdin false false) [];
          do _ <- serialize_file fuel size split opens room (fs (o_serialization o)) h1 (b_dawg b);
          do _ <- destroy fuel h1 b;
          Ok (show_config o ++ out ++ endl ++ lit "Exiting ..." ++ endl, err)
      end
  end.
