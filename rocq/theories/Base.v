(** * Base: outcomes, bytes, strings, 64-bit size_t arithmetic.

    Nothing here models a particular function of /repo; it fixes how C++
    values and outcomes are represented everywhere else. *)
From Coq Require Export List Arith NArith ZArith Lia Bool.
From Coq Require Export ZifyBool ZifyNat ZifyN.
From Coq Require Export Strings.Ascii.
Export ListNotations.
Set Implicit Arguments.

(** ** Outcomes

    [UB]: the C++ program would execute undefined behaviour at this point (null
    or dangling dereference, out-of-range element access, double delete, signed
    overflow).  [OOF]: the fuel given to a loop of the model ran out, which is
    an artefact of the model; theorems exclude both. *)
Inductive res (A : Type) : Type :=
| Ok (a : A)
| UB
| OOF.
Arguments Ok {A} a.
Arguments UB {A}.
Arguments OOF {A}.

Definition rbind {A B : Type} (r : res A) (f : A -> res B) : res B :=
  match r with
  | Ok a => f a
  | UB => UB
  | OOF => OOF
  end.

Declare Scope res_scope.
Notation "'do' x <- r ; f" := (rbind r (fun x => f))
  (at level 200, x pattern, r at level 100, f at level 200, right associativity)
  : res_scope.
Open Scope res_scope.

(** Reading through a possibly null or dangling pointer / out-of-range index. *)
Definition deref {A : Type} (o : option A) : res A :=
  match o with
  | Some a => Ok a
  | None => UB
  end.

(** ** Bytes and strings

    A C++ [char] is a byte; a [std::string] is a finite sequence of bytes. *)
Notation char := ascii (only parsing).
Notation str := (list ascii) (only parsing).

Definition ceqb (a b : char) : bool := Ascii.eqb a b.

(** [std::string] comparison uses [char_traits<char>::compare], i.e. memcmp:
    bytes are compared as unsigned values. *)
Definition uchar (c : char) : N := N_of_ascii c.

(** The built-in [<] on [char] (used by [std::map<char, ...>] and [std::less])
    compares signed values on the platforms considered (x86-64, char signed). *)
Definition schar (c : char) : Z :=
  if (uchar c <? 128)%N then Z.of_N (uchar c) else (Z.of_N (uchar c) - 256)%Z.

(** Three-way comparison of strings, [u.compare(v)]. *)
Fixpoint str_compare (u v : str) : comparison :=
  match u, v with
  | [], [] => Eq
  | [], _ :: _ => Lt
  | _ :: _, [] => Gt
  | a :: u', b :: v' =>
      match N.compare (uchar a) (uchar b) with
      | Eq => str_compare u' v'
      | c => c
      end
  end.

Definition str_ltb (u v : str) : bool :=
  match str_compare u v with Lt => true | _ => false end.

Definition str_eqb (u v : str) : bool :=
  match str_compare u v with Eq => true | _ => false end.

(** ** size_t: 64-bit unsigned arithmetic *)
Definition W : N := 18446744073709551616%N.          (* 2^64 *)
Definition SIZE_MAX : N := 18446744073709551615%N.   (* 2^64 - 1 *)
Definition INT_MAX : N := 2147483647%N.               (* int is 32 bits wide *)
Definition wadd (a b : N) : N := ((a + b) mod W)%N.
Definition wsub (a b : N) : N := ((a + W - b) mod W)%N.

(** Literals, for examples only: [lit "abc"]. *)
From Coq Require String.
Export (notations) String.
Definition lit (s : String.string) : str := String.list_ascii_of_string s.
Arguments lit s%string_scope.
