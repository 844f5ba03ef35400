(** * ModelDemo: the example program (example/src).

    Its terminal output is modelled by the answers it prints; prompts, the
    printed configuration and messages on std::cerr are left out.  A path names a
    regular file or nothing. *)
From Coq Require Import Strings.String.
From Verif Require Import Base Spec ModelTransducer ModelDawg ModelSerial ModelWire ModelQuery.
Local Open Scope N_scope.
Notation length := List.length.

(** The files. *)
Definition disk := str -> option (list byte).

Definition exists_file (fs : disk) (p : str) : bool := match fs p with Some _ => true | None => false end.

(** ** Command line (command_line.h, command_line.cpp) *)

(** ReturnCode (command_line.h:14-21), as far as it is used. *)
Inductive return_code := RETURN_SUCCESS | RETURN_END_OF_OPTS | RETURN_FILE_NOT_EXISTS | RETURN_INVALID_ARG.

(** What parse_opts fills in (command_line.h:45-48). *)
Record options := Options {
  o_dictionary : str; o_serialization : str; o_algorithm : algorithm; o_max_distance : N }.

Definition default_options : options :=
  Options (lit "../resources/programming-languages.txt") (lit "programming-languages.pb") TRANSPOSITION 2.

(** Reading a size_t from a stringstream, in the "C" locale: white space is
    skipped; if nothing is left the variable keeps its value; an optional sign;
    decimal digits up to the first other character, 0 if there are none; SIZE_MAX
    if the number is too large; a minus sign negates modulo 2^64. *)
Definition is_space (c : char) : bool := (uchar c =? 32) || (9 <=? uchar c) && (uchar c <=? 13).
Fixpoint skip_spaces (s : str) : str :=
  match s with c :: s' => if is_space c then skip_spaces s' else s | [] => [] end.
Definition is_digit (c : char) : bool := (48 <=? uchar c) && (uchar c <=? 57).
Fixpoint digits (acc : N) (s : str) : N :=
  match s with
  | c :: s' => if is_digit c then digits (10 * acc + (uchar c - 48)) s' else acc
  | [] => acc
  end.
Definition read_size (s : str) (old : N) : N :=
  match skip_spaces s with
  | [] => old
  | c :: s' =>
      let negative := ceqb c "-" in
      let n := digits 0 (if negative || ceqb c "+" then s' else c :: s') in
      if SIZE_MAX <? n then SIZE_MAX
      else if negative then (2 ^ 64 - n) mod 2 ^ 64 else n
  end.

(** The loop of CommandLine::parse_opts over argv[1], argv[2], ...
    (command_line.cpp:45-86) with next_path (34-43). *)
Fixpoint parse_args (fs : disk) (o : options) (args : list str) : options + return_code :=
  match args with
  | [] => inl o
  | arg :: rest =>
      if str_eqb arg (lit "-h") || str_eqb arg (lit "--help") then inr RETURN_SUCCESS
      else if str_eqb arg (lit "--dictionary-path") then
        match rest with
        | [] => inr RETURN_END_OF_OPTS
        | p :: rest' =>
            if exists_file fs p
            then parse_args fs (Options p (o_serialization o) (o_algorithm o) (o_max_distance o)) rest'
            else inr RETURN_FILE_NOT_EXISTS
        end
      else if str_eqb arg (lit "--serialization-path") then
        match rest with
        | [] => inr RETURN_END_OF_OPTS
        | p :: rest' => parse_args fs (Options (o_dictionary o) p (o_algorithm o) (o_max_distance o)) rest'
        end
      else if str_eqb arg (lit "--standard") then
        parse_args fs (Options (o_dictionary o) (o_serialization o) STANDARD (o_max_distance o)) rest
      else if str_eqb arg (lit "--transposition") then
        parse_args fs (Options (o_dictionary o) (o_serialization o) TRANSPOSITION (o_max_distance o)) rest
      else if str_eqb arg (lit "--merge-and-split") then
        parse_args fs (Options (o_dictionary o) (o_serialization o) MERGE_AND_SPLIT (o_max_distance o)) rest
      else if str_eqb arg (lit "--max-distance") then
        match rest with
        | [] => inr RETURN_END_OF_OPTS
        | v :: rest' =>
            parse_args fs (Options (o_dictionary o) (o_serialization o) (o_algorithm o)
                             (read_size v (o_max_distance o))) rest'
        end
      else inr RETURN_INVALID_ARG
  end.

(** CommandLine::parse_opts (command_line.cpp:45-101). *)
Definition parse_opts (fs : disk) (args : list str) : options + return_code :=
  match parse_args fs default_options args with
  | inr code => inr code
  | inl o =>
      if negb (exists_file fs (o_dictionary o)) && negb (exists_file fs (o_serialization o))
      then inr RETURN_FILE_NOT_EXISTS else inl o
  end.

(** ** Text input *)

Definition newline : char := "010"%char.

(** An istream: what has not been read, eofbit, failbit. *)
Record istream := IStream { unread : str; eofbit : bool; failbit : bool }.

(** Characters up to the next newline, which is taken and not stored; whether
    there was one; what follows. *)
Fixpoint to_newline (s : str) : str * bool * str :=
  match s with
  | [] => ([], false, [])
  | c :: s' =>
      if ceqb c newline then ([], true, s')
      else let '(line, found, rest) := to_newline s' in (c :: line, found, rest)
  end.

(** std::getline(stream, line): if the stream is not good, failbit is set and
    [line] is left as it is; otherwise [line] is replaced; failbit is set if not
    even a newline was read. *)
Definition getline (s : istream) (line : str) : istream * str :=
  if eofbit s || failbit s then (IStream (unread s) (eofbit s) true, line)
  else
    let '(l, found, rest) := to_newline (unread s) in
    (IStream rest (negb found) (negb found && match l with [] => true | _ => false end), l).

(** [while (std::getline(dictionary_file, term)) terms.push_back(term);]
    (main.cpp:76-79). *)
Fixpoint read_terms (fuel : nat) (s : istream) (term : str) : res (list str) :=
  match fuel with
  | O => OOF
  | S fuel' =>
      let (s', term') := getline s term in
      if failbit s' then Ok []
      else do terms <- read_terms fuel' s' term'; Ok (term' :: terms)
  end.

(** The dictionary file (main.cpp:73-81); no terms if it cannot be opened. *)
Definition dictionary_terms (fuel : nat) (file : option (list byte)) : res (list str) :=
  match file with
  | None => Ok []
  | Some bytes => read_terms fuel (IStream (map ascii_of_N bytes) false false) []
  end.

(** std::sort of strings (main.cpp:83).  Its result is determined by the order,
    because strings that compare equal are equal; modelled by insertion. *)
Fixpoint insert_term (t : str) (ts : list str) : list str :=
  match ts with
  | [] => [t]
  | u :: ts' => if str_ltb u t then u :: insert_term t ts' else t :: ts
  end.
Definition sort_terms (ts : list str) : list str := fold_right insert_term [] ts.

(** ** main *)

(** What a line of output says: d(query, term) = distance. *)
Definition answer := (str * str * N)%type.

(** query<Type> (main.cpp:24-48).  A new Transducer for every query. *)
Definition answer_query (fuel : nat) (h : heap) (d : dawg) (o : options) (q : str) : res (list answer) :=
  do found <- query_all as_candidate fuel h (new_transducer (o_algorithm o) (d_root d)) q (o_max_distance o);
  Ok (map (fun '(term, distance) => (q, term, distance)) found).

(** prompt and the loop of main (main.cpp:50-56, 91-107).  The variable
    [query_term] keeps its value from one prompt to the next. *)
Fixpoint prompt_loop (rounds fuel : nat) (h : heap) (d : dawg) (o : options) (s : istream) (query_term : str)
  : res (list answer) :=
  match rounds with
  | O => OOF
  | S rounds' =>
      let (s', q) := getline s query_term in
      match q with
      | [] => Ok []
      | _ =>
          do now <- answer_query fuel h d o q;
          do later <- prompt_loop rounds' fuel h d o s' q;
          Ok (now ++ later)
      end
  end.

Definition set_file (fs : disk) (p : str) (file : option (list byte)) : disk :=
  fun p' => if str_eqb p' p then file else fs p'.

(** How a run ended: the code returned by main, the answers printed, the files.
    Not observable: memory when the dictionary was saved and at the end. *)
Record outcome := Outcome {
  code : return_code; printed : list answer; files : disk; saved_from : heap; memory : heap }.

(** main (main.cpp:58-120).  [alloc], [size], [split], [opens], [room] are the
    allocator, the size of the stream buffer, protobuf's way of splitting its
    output, whether the file can be opened for writing and how many bytes fit on
    the disk. *)
Definition demo (fuel : nat) (alloc : heap -> ptr) (size : N) (split : list byte -> list (list byte))
  (opens : bool) (room : N) (fs : disk) (args : list str) (stdin : str) : res outcome :=
  match parse_opts fs args with
  | inr c => Ok (Outcome c [] fs [] [])
  | inl o =>
      do (h, restored) <- deserialize_file alloc [] (fs (o_serialization o));
      do (h1, dictionary) <-
        match restored with
        | Some b => Ok (h, Some b)
        | None =>
            do terms <- dictionary_terms fuel (fs (o_dictionary o));
            sorted_dawg fuel alloc h (sort_terms terms)
        end;
      match dictionary with
      | None => UB    (* dawg->root() or to_protobuf of a null pointer *)
      | Some b =>
          do out <- prompt_loop fuel fuel h1 (b_dawg b) o (IStream stdin false false) [];
          do (_, file) <- serialize_file fuel size split opens room (fs (o_serialization o)) h1 (b_dawg b);
          do h2 <- destroy fuel h1 b;
          Ok (Outcome RETURN_SUCCESS out (set_file fs (o_serialization o) file) h1 h2)
      end
  end.
