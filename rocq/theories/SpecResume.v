(** * SpecResume: adding to a dictionary after finish() has been called.

    A history is a list of calls of add, finish and minimize on one SortedDawg, and
    of clean_up followed by init. *)
From Verif Require Import Base Spec ModelHash ModelDawg SpecDawg.

Inductive act := Enter (t : str) | Seal | Settle (k : nat) | Reopen.

(** The calls one after the other; the answers are those of add. *)
Fixpoint acts (fuel : nat) (alloc : heap -> ptr) (h : heap) (b : builder) (l : list act)
  : res (list bool * heap * builder) :=
  match l with
  | [] => Ok ([], h, b)
  | Enter t :: l' =>
      do (r, h1, b1) <- add fuel alloc h b t;
      do (rs, h2, b2) <- acts fuel alloc h1 b1 l';
      Ok (r :: rs, h2, b2)
  | Seal :: l' =>
      do (h1, b1) <- finish fuel h b;
      acts fuel alloc h1 b1 l'
  | Settle k :: l' =>
      do w <- deref (b_work b);
      do (h1, w1) <- minimize fuel h w k;
      acts fuel alloc h1 (Builder (b_dawg b) (b_prev b) (Some w1)) l'
  | Reopen :: l' =>
      do (h1, b1) <- clean_up fuel h b;
      acts fuel alloc h1 (init b1) l'
  end.

(** A new SortedDawg, the calls of a history, and a last call of finish. *)
Definition played (fuel : nat) (alloc : heap -> ptr) (h : heap) (l : list act)
  : res (list bool * heap * builder) :=
  let (h1, b1) := new_sorted_dawg alloc h in
  acts fuel alloc h1 (init b1) (l ++ [Seal]).

(** A SortedDawg that is there already, init, the calls, and a last call of finish. *)
Definition continued (fuel : nat) (alloc : heap -> ptr) (h : heap) (b : builder) (l : list act)
  : res (list bool * heap * builder) :=
  acts fuel alloc h (init b) (l ++ [Seal]).

(** [differ u v]: the strings do not begin with the same character. *)
Definition differ (u v : str) : Prop :=
  match u, v with c :: _, d :: _ => c <> d | _, _ => True end.

(** [room stored p r]: no stored string goes on after [p] with the first character
    of [r]. *)
Definition room (stored : list str) (p r : str) : Prop :=
  forall c r' x, r = c :: r' -> ~ In (p ++ c :: x) stored.

(** What the calls do to the set of strings.  [prev] is the last accepted term,
    [path] the string stored for it, of which minimize(k) leaves the first [k]
    characters and finish() leaves nothing; clean_up() and init() are called only
    then.
    An accepted term [p ++ r], where [p] is what it shares with [prev], is stored
    as [r] behind the first [length p] characters of [path]. *)
Inductive tale : str -> str -> list str -> list act -> list bool -> list str -> Prop :=
| tale_nil : forall prev path stored, tale prev path stored [] [] stored
| tale_drop : forall prev path stored t l flags out, lex_lt t prev ->
    tale prev path stored l flags out ->
    tale prev path stored (Enter t :: l) (false :: flags) out
| tale_keep : forall prev path stored p r r' l flags out,
    prev = p ++ r' -> differ r r' -> ~ lex_lt (p ++ r) prev ->
    room stored (firstn (length p) path) r ->
    tale (p ++ r) (firstn (length p) path ++ r) (stored ++ [firstn (length p) path ++ r]) l flags out ->
    tale prev path stored (Enter (p ++ r) :: l) (true :: flags) out
| tale_seal : forall prev path stored l flags out, tale prev [] stored l flags out ->
    tale prev path stored (Seal :: l) flags out
| tale_settle : forall prev path stored k l flags out, tale prev (firstn k path) stored l flags out ->
    tale prev path stored (Settle k :: l) flags out
| tale_reopen : forall prev stored l flags out, tale prev [] stored l flags out ->
    tale prev [] stored (Reopen :: l) flags out.

(** [anew prev left l flags kept]: every term that is not smaller than the last
    one kept is kept, as in [greedy], and it shares no more characters with that
    one than minimize() and finish() have left since, which are [left] to begin
    with.  After finish() it must begin with another character. *)
Inductive anew : str -> nat -> list act -> list bool -> list str -> Prop :=
| anew_nil : forall prev left, anew prev left [] [] []
| anew_drop : forall prev left t l flags kept, lex_lt t prev ->
    anew prev left l flags kept -> anew prev left (Enter t :: l) (false :: flags) kept
| anew_keep : forall prev left p r r' l flags kept,
    prev = p ++ r' -> differ r r' -> ~ lex_lt (p ++ r) prev -> length p <= left ->
    anew (p ++ r) (length (p ++ r)) l flags kept ->
    anew prev left (Enter (p ++ r) :: l) (true :: flags) ((p ++ r) :: kept)
| anew_seal : forall prev left l flags kept,
    anew prev 0 l flags kept -> anew prev left (Seal :: l) flags kept
| anew_settle : forall prev left k l flags kept,
    anew prev (Nat.min left k) l flags kept -> anew prev left (Settle k :: l) flags kept
| anew_reopen : forall prev l flags kept, anew prev 0 l flags kept -> anew prev 0 (Reopen :: l) flags kept.

(** The terms passed to add. *)
Fixpoint entered (l : list act) : list str :=
  match l with [] => [] | Enter t :: l' => t :: entered l' | Seal :: l' | Settle _ :: l' | Reopen :: l' => entered l' end.
