(** Model of qadence/serialization.py:75-104 ([_parser_fn], [parse_expr_fn]) together with the grammar file
    qadence/serial_expr_grammar.peg:1-11, as arpeggio runs it: ordered choice, greedy repetition, regular expressions
    matched at the current position, and white space skipped before every terminal.
    Simplification: characters are 8-bit ([\d] means 0-9). *)
From Coq Require Import List Ascii Bool Arith String.
From Coq Require Import List.
From Verif Require Import S_Grammar.
Import ListNotations.
Open Scope char_scope.
Open Scope list_scope.

(** arpeggio's default [skipws] with [ws = "\t\n\r "] *)
Fixpoint skipws (s : text) : text := match s with c :: r => if white c then skipws r else s | [] => [] end.
Fixpoint span (p : ascii -> bool) (s : text) : text * text :=
  match s with c :: r => if p c then let '(a, b) := span p r in (c :: a, b) else ([], s) | [] => ([], []) end.

(** a one-character string match: '(' ')' ',' '=' *)
Definition m_char (k : ascii) (s : text) : option text :=
  match skipws s with c :: r => if Ascii.eqb c k then Some r else None | [] => None end.
(** grammar line 7: [id = r"[a-zA-Z][a-zA-Z_0-9]*"] *)
Definition m_id (s : text) : option (text * text) :=
  match skipws s with
  | c :: r => if alpha c then let '(a, b) := span idchar r in Some (c :: a, b) else None
  | [] => None
  end.
(** grammar line 6: [param = r"[a-z][a-zA-Z]*"] *)
Definition m_param (s : text) : option (text * text) :=
  match skipws s with
  | c :: r => if lower c then let '(a, b) := span alpha r in Some (c :: a, b) else None
  | [] => None
  end.
(** grammar line 9: [int = r"-?(0|[1-9][0-9]* )"] *)
Definition m_nat (s : text) : option (text * text) :=
  match s with
  | c :: r => if Ascii.eqb c "0" then Some (["0"], r)
              else if digit1 c then let '(a, b) := span digit r in Some (c :: a, b) else None
  | [] => None
  end.
Definition m_int (s : text) : option (text * text) :=
  match skipws s with
  | c :: r => if Ascii.eqb c "-" then match m_nat r with Some (a, b) => Some ("-" :: a, b) | None => None end
              else m_nat (c :: r)
  | [] => None
  end.
(** the closing quote *)
Definition m_close (a : text) (s : text) : option (text * text) :=
  match s with c :: r => if Ascii.eqb c "'" then Some (a, r) else None | [] => None end.
(** grammar line 10: [float_str = r"'-?(0|\d*(\.\d* ))'"], by backtracking: first '0' and the quote, then the second alternative *)
Definition m_decimal (s : text) : option (text * text) :=
  match (match s with c :: r => if Ascii.eqb c "0" then m_close ["0"] r else None | [] => None end) with
  | Some x => Some x
  | None =>
      let '(a, r) := span digit s in
      match r with
      | c :: r' => if Ascii.eqb c "." then let '(b, r'') := span digit r' in m_close (a ++ "." :: b) r'' else None
      | [] => None
      end
  end.
Definition m_float (s : text) : option (text * text) :=
  match skipws s with
  | q :: c :: r =>
      if Ascii.eqb q "'" then
        if Ascii.eqb c "-" then match m_decimal r with Some (a, b) => Some ("-" :: a, b) | None => None end
        else m_decimal (c :: r)
      else None
  | _ => None
  end.
(** grammar line 11: [str = r"'[a-zA-Z0-9\_\.]+'"] *)
Definition m_str (s : text) : option (text * text) :=
  match skipws s with
  | q :: r => if Ascii.eqb q "'" then
                match span strchar r with ([], _) => None | (a, r') => m_close a r' end
              else None
  | [] => None
  end.
(** grammar line 8: [bool = 'True' / 'False'] *)
Fixpoint prefix (k s : text) : option text :=
  match k with
  | [] => Some s
  | c :: k' => match s with d :: s' => if Ascii.eqb c d then prefix k' s' else None | [] => None end
  end.
Definition m_bool (s : text) : option (bool * text) :=
  match prefix (bool_text true) (skipws s) with
  | Some r => Some (true, r)
  | None => match prefix (bool_text false) (skipws s) with Some r => Some (false, r) | None => None end
  end.
(** grammar line 5: [pair = param '=' (int / bool / str)] *)
Definition m_pair (s : text) : option (value * text) :=
  match m_param s with
  | None => None
  | Some (n, r) =>
      match m_char "=" r with
      | None => None
      | Some r =>
          match m_int r with
          | Some (k, r) => Some (VKeyInt n k, r)
          | None => match m_bool r with
                    | Some (b, r) => Some (VKeyBool n b, r)
                    | None => match m_str r with Some (k, r) => Some (VKeyStr n k, r) | None => None end
                    end
          end
      end
  end.
(** grammar line 4: [value = int / float_str / str / pair] *)
Definition m_value (s : text) : option (value * text) :=
  match m_int s with
  | Some (k, r) => Some (VInt k, r)
  | None => match m_float s with
            | Some (k, r) => Some (VQuoted k, r)
            | None => match m_str s with Some (k, r) => Some (VQuoted k, r) | None => m_pair s end
            end
  end.
(** grammar lines 2 and 3: [expr = id '(' args ')'], [args = (value / expr) (',' (value / expr))* ].
    The recursion is bounded by [f]; [parse] supplies more than any text needs (proved in P_Grammar). *)
Fixpoint m_expr (f : nat) (s : text) : option (call * text) :=
  match f with
  | O => None
  | S f =>
      match m_id s with
      | None => None
      | Some (n, r) =>
          match m_char "(" r with
          | None => None
          | Some r =>
              match m_item f r with
              | None => None
              | Some (a, r) =>
                  let '(args, r) := m_more f r in
                  match m_char ")" r with Some r => Some (Call n (a :: args), r) | None => None end
              end
          end
      end
  end
with m_item (f : nat) (s : text) : option (call * text) :=
  match f with
  | O => None
  | S f => match m_value s with Some (v, r) => Some (Val v, r) | None => m_expr f s end
  end
with m_more (f : nat) (s : text) : list call * text :=
  match f with
  | O => ([], s)
  | S f =>
      match m_char "," s with
      | None => ([], s)
      | Some r => match m_item f r with
                  | None => ([], s)
                  | Some (a, r) => let '(args, r) := m_more f r in (a :: args, r)
                  end
      end
  end.
(** grammar line 1: [Program = expr EOF] *)
Definition parse (code : text) : option call :=
  match m_expr (2 + 3 * length code) code with
  | Some (t, r) => match skipws r with [] => Some t | _ => None end
  | None => None
  end.
(** serialization.py:85-104 [parse_expr_fn] *)
Definition parse_expr_fn (code : text) : bool := match parse code with Some _ => true | None => false end.
