(** What the expression grammar describes, written as a set of texts, independently of any parsing procedure:
    calls of names with literal, keyword and nested-call arguments, written as tokens with white space anywhere between them. *)
From Coq Require Import List Ascii Bool Arith.
Import ListNotations.
Open Scope char_scope.
Open Scope list_scope.

Definition text := list ascii.
Definition between (a b c : ascii) : bool := Nat.leb (nat_of_ascii a) (nat_of_ascii c) && Nat.leb (nat_of_ascii c) (nat_of_ascii b).
Definition lower (c : ascii) : bool := between "a" "z" c.
Definition upper (c : ascii) : bool := between "A" "Z" c.
Definition alpha (c : ascii) : bool := lower c || upper c.
Definition digit (c : ascii) : bool := between "0" "9" c.
Definition digit1 (c : ascii) : bool := between "1" "9" c.
Definition idchar (c : ascii) : bool := alpha c || digit c || Ascii.eqb c "_".
Definition strchar (c : ascii) : bool := idchar c || Ascii.eqb c ".".
Definition white (c : ascii) : bool :=
  Ascii.eqb c " " || Ascii.eqb c "009" || Ascii.eqb c "010" || Ascii.eqb c "013".

(** Tokens. *)
Definition ident (k : text) : Prop := exists c r, k = c :: r /\ alpha c = true /\ forallb idchar r = true.
Definition keyword (k : text) : Prop := exists c r, k = c :: r /\ lower c = true /\ forallb alpha r = true.
Definition natural (k : text) : Prop := k = ["0"] \/ exists c r, k = c :: r /\ digit1 c = true /\ forallb digit r = true.
Definition integer (k : text) : Prop := natural k \/ exists r, k = "-" :: r /\ natural r.
(** What may stand between quotes: an optionally negative decimal number without exponent, or a word. *)
Definition decimal (k : text) : Prop :=
  k = ["0"] \/ exists a b, k = a ++ "." :: b /\ forallb digit a = true /\ forallb digit b = true.
Definition number (k : text) : Prop := decimal k \/ exists r, k = "-" :: r /\ decimal r.
Definition word (k : text) : Prop := k <> [] /\ forallb strchar k = true.
Definition quoted (k : text) : text := "'" :: k ++ ["'"].

Inductive value :=
| VInt (k : text) | VQuoted (k : text)
| VKeyInt (name k : text) | VKeyBool (name : text) (b : bool) | VKeyStr (name k : text).
Inductive call :=
| Val (v : value)
| Call (name : text) (args : list call).

Definition value_ok (v : value) : Prop :=
  match v with
  | VInt k => integer k
  | VQuoted k => number k \/ word k
  | VKeyInt n k => keyword n /\ integer k
  | VKeyBool n _ => keyword n
  | VKeyStr n k => keyword n /\ word k
  end.
Definition bool_text (b : bool) : text := if b then ["T"; "r"; "u"; "e"] else ["F"; "a"; "l"; "s"; "e"].
Definition value_tokens (v : value) : list text :=
  match v with
  | VInt k => [k]
  | VQuoted k => [quoted k]
  | VKeyInt n k => [n; ["="]; k]
  | VKeyBool n b => [n; ["="]; bool_text b]
  | VKeyStr n k => [n; ["="]; quoted k]
  end.
(** Arguments: at least one in each call. *)
Inductive call_ok : call -> Prop :=
| ok_val : forall v, value_ok v -> call_ok (Val v)
| ok_call : forall n a args, ident n -> call_ok a -> Forall call_ok args -> call_ok (Call n (a :: args)).

Fixpoint separated (ls : list (list text)) : list text :=
  match ls with [] => [] | [l] => l | l :: r => l ++ [","] :: separated r end.
Fixpoint tokens (t : call) : list text :=
  match t with
  | Val v => value_tokens v
  | Call n args => n :: ["("] :: separated (map tokens args) ++ [[")"]]
  end.

(** A text written as the given tokens, with any white space before, between and after them. *)
Inductive spaced : list text -> text -> Prop :=
| sp_nil : forall w, forallb white w = true -> spaced [] w
| sp_cons : forall w k l s, forallb white w = true -> spaced l s -> spaced (k :: l) (w ++ k ++ s).

Definition is_call (t : call) : Prop := match t with Call _ _ => True | Val _ => False end.
(** The texts of the grammar: one call, nothing else. *)
Definition grammatical (code : text) : Prop := exists t, is_call t /\ call_ok t /\ spaced (tokens t) code.
