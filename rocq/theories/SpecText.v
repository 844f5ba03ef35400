(** * SpecText: what one would expect to see. *)
From Verif Require Import Base Spec ModelTransducer ModelDawg ModelSerial ModelWire SpecWire SpecDawg SpecQuery ModelDemo SpecDemo ModelText.
Local Open Scope N_scope.

(** A path between quotes, in which quotes and backslashes are preceded by a
    backslash. *)
Inductive in_quotes : str -> str -> Prop :=
| quotes_nil : in_quotes [] []
| quotes_plain : forall c p s, c <> """"%char -> c <> "\"%char -> in_quotes p s -> in_quotes (c :: p) (c :: s)
| quotes_special : forall c p s, c = """"%char \/ c = "\"%char -> in_quotes p s -> in_quotes (c :: p) ("\"%char :: c :: s).
Definition quoted (p s : str) : Prop := exists inner, in_quotes p inner /\ s = lit """" ++ inner ++ lit """".

Definition name_of (a : algorithm) : str :=
  match a with STANDARD => lit "standard" | TRANSPOSITION => lit "transposition" | MERGE_AND_SPLIT => lit "merge-and-split" end.

(** The configuration. *)
Definition configuration (o : options) (text : str) : Prop :=
  exists d s, quoted (o_dictionary o) d /\ quoted (o_serialization o) s /\
  text = unlines [lit "Using configuration:"; lit "  dictionary-path: " ++ d; lit "  serialization-path: " ++ s;
    lit "  algorithm: " ++ name_of (o_algorithm o); lit "  max-distance: " ++ decimal (o_max_distance o)].

(** The line of an answer. *)
Definition answer_line (a : answer) : str :=
  let '(q, t, k) := a in lit "d(""" ++ q ++ lit """, """ ++ t ++ lit """) = " ++ decimal k.

Definition question : str := unlines [[]; lit "Enter a query term (or nothing to exit)."] ++ lit "query> ".

(** Questions and answers. *)
Definition conversation (parts : list (list answer)) : str :=
  flat_map (fun part => question ++ unlines (map answer_line part)) parts ++ question ++
  unlines [[]; lit "Exiting ..."].

(** What a run shows. *)
Definition shows (s : setting) (fuel : nat) : res (str * str) :=
  demo_text fuel (s_alloc s) (s_size s) (s_split s) (s_opens s) (s_room s) (s_files s) (s_args s) (s_stdin s).

(** What a run of the program has to do with options [o] and lines [terms] of the
    dictionary file: it finds nothing that was saved, or what runs with these lines
    have saved. *)
Definition uses (s : setting) (o : options) (terms : list str) : Prop :=
  sensible s /\ parse_opts (s_files s) (s_args s) = inl o /\
  (parse_from (s_files s (o_serialization o)) = Ok None /\ file_lines (s_files s (o_dictionary o)) terms \/
   saved (o_serialization o) terms (s_files s)).

(** Texts with commas between them. *)
Inductive with_commas : list str -> str -> Prop :=
| commas_none : with_commas [] []
| commas_one : forall x, with_commas [x] x
| commas_more : forall x y xs text, with_commas (y :: xs) text -> with_commas (x :: y :: xs) (x ++ lit ", " ++ text).

(** A node with these labels, and a pair of these words. *)
Definition text_of_node (final : bool) (labels : list char) (text : str) : Prop :=
  exists edges, with_commas (map (fun c => lit "'" ++ [c] ++ lit "':DawgNode{...}") labels) edges /\
  text = lit "DawgNode{is_final=" ++ (if final then lit "true" else lit "false") ++ lit ", edges={" ++ edges ++ lit "}}".
Definition text_of_pair (u v : str) : str := lit "SymmetricPair{first=""" ++ u ++ lit """, second=""" ++ v ++ lit """}".

(** An address: 0x and its digits in base 16, the first of which is not 0; the null
    pointer is 0. *)
Definition hex_digit (c : char) (k : N) : Prop :=
  In (c, k) (combine (lit "0123456789abcdef") [0; 1; 2; 3; 4; 5; 6; 7; 8; 9; 10; 11; 12; 13; 14; 15]).
Inductive hex_numeral : str -> N -> Prop :=
| hex_nil : hex_numeral [] 0
| hex_snoc : forall s n c k, hex_numeral s n -> hex_digit c k -> hex_numeral (s ++ [c]) (16 * n + k).
Inductive address_text : N -> str -> Prop :=
| address_null : address_text 0 (lit "0")
| address_digits : forall p s, p <> 0 -> hex_numeral s p -> hd_error s <> Some "0"%char -> address_text p (lit "0x" ++ s).
