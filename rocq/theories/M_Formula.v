(** Model of the formulas printed for observables: qadence/utils.py:321-368 [block_to_mathematical_expression], utils.py:188-198
    [format_parameter], the titles of blocks (blocks/abstract.py:222-236, blocks/composite.py:71-78, blocks/primitive.py:269-292) and
    model.py:677-697 [QuantumModel.observables_to_expression].

    Blocks with tags are those of M_Tags.v.  Simplifications: the sign of the tensor product is written as the single character @; the text
    sympy prints for a rounded expression, whether it is known to be real, the qubits of a block and the titles of blocks other than the
    parameter-free one-qubit operations are given; a numeral is an optional minus sign, digits and at most one point (Python also accepts
    an exponent, underscores and spaces, which are read like any text that is no numeral).  [None]: an exception (IndexError). *)
From Coq Require Import Ascii String Reals List Arith Bool ZArith DecimalString.
From Coquelicot Require Import Coquelicot.
From Coq Require Import List.
From Verif Require Import S_Ops M_Block M_Tensor M_Transpile M_Tags.
Import ListNotations.
Open Scope string_scope.
Open Scope nat_scope.

(** rich.tree.Tree: a label and the children. *)
Inductive rtree : Type := RNode (label : string) (children : list rtree).

(** Python's [w in s] for strings *)
Fixpoint contains (w s : string) : bool :=
  prefix w s || match s with "" => false | String _ r => contains w r end.
(** [",".join(...)], [str(i)] *)
Definition str_nat (n : nat) : string := NilZero.string_of_uint (Nat.to_uint n).
Definition str_int (z : Z) : string := NilZero.string_of_int (Z.to_int z).

(** Python's [int(s)] and, for a text with a point, [float(s)]: the digits as an integer, and the number of digits after the point.
    [None]: ValueError. *)
Definition digit (c : ascii) : option Z :=
  let n := nat_of_ascii c in if (48 <=? n) && (n <=? 57) then Some (Z.of_nat (n - 48)) else None.
Fixpoint digits (acc : Z) (s : string) : option Z :=
  match s with "" => Some acc | String c r => match digit c with Some d => digits (10 * acc + d) r | None => None end end.
Fixpoint split_point (s : string) : string * option string :=
  match s with
  | "" => ("", None)
  | String "." r => ("", Some r)
  | String c r => let (a, b) := split_point r in (String c a, b)
  end.
Definition unsigned (s : string) : option (Z * nat) :=
  match split_point s with
  | (a, None) => match a with "" => None | _ => option_map (fun m => (m, 0)) (digits 0 a) end
  | (a, Some f) => match a ++ f with "" => None | t => option_map (fun m => (m, String.length f)) (digits 0 t) end
  end.
Definition py_number (s : string) : option (Z * nat) :=
  match s with
  | String "-" r => option_map (fun mk => (- fst mk, snd mk)%Z) (unsigned r)
  | _ => unsigned s
  end.
(** utils.py:350, 352: [coeff == 0], [coeff == 1] *)
Definition is_zero (mk : Z * nat) : bool := Z.eqb (fst mk) 0.
Definition is_one (mk : Z * nat) : bool := Z.eqb (fst mk) (10 ^ Z.of_nat (snd mk)).

(** utils.py:343: the first match of the regular expression [mul:, blanks, one or more characters, as few as possible, up to ]. *)
Fixpoint upto (s : string) : option string :=
  match s with "" => None | String "]" _ => Some "" | String c r => option_map (String c) (upto r) end.
Fixpoint blanks (s : string) : string := match s with String " " r => blanks r | _ => s end.
Fixpoint mul_text (s : string) : option string :=
  match s with
  | "" => None
  | String c r =>
      if prefix "[mul:" s
      then match blanks (substring 5 (String.length s - 5) s) with "" => None | String d q => option_map (String d) (upto q) end
      else mul_text r
  end.
(** utils.py:360-362 *)
Definition strip (s : string) : string :=
  if existsb (String.eqb (substring 0 3 s)) [" + "; " @ "; " * "] then substring 3 (String.length s - 3) s else s.

(** utils.py:321-368 [block_to_mathematical_expression], for the tree of a block *)
Fixpoint expression (t : rtree) : option string :=
  match t with
  | RNode label children =>
      let parts := map expression children in
      obind (if contains "AddBlock" label then option_map (String.concat " + ") (osequence parts) else Some label) (fun title =>
      obind (if contains "KronBlock" title then option_map (String.concat " @ ") (osequence parts) else Some title) (fun title =>
      obind (if contains "mul" title
             then obind (mul_text title) (fun c =>
                  let child := match parts with p :: _ => p | [] => None end in
                  let product := option_map (fun p => c ++ " * " ++ p) child in
                  match py_number c with
                  | Some n => if is_zero n then Some "" else if is_one n then child else product
                  | None => product
                  end)
             else Some title) (fun title =>
      let title := strip title in
      Some (if 1 <? List.length children then "(" ++ title ++ ")" else title))))
  end.

(** The names of the classes in operations/primitive.py; N has the same for both states (154-166). *)
Definition prim_name (p : prim) : string :=
  match p with
  | PX => "X" | PY => "Y" | PZ => "Z" | PI_ => "I" | PH => "H" | PS => "S" | PSdg => "SDagger" | PT => "T" | PTdg => "TDagger"
  | PZero => "Zero" | PN _ => "N"
  end.
Definition kind_name (k : kind) : string := match k with KChain => "ChainBlock" | KKron => "KronBlock" | KAdd => "AddBlock" end.
(** abstract.py:227-228 *)
Definition tag_text (t : ttag) : string := match t with None => "" | Some s => " \[tag: " ++ s ++ "]" end.
(** abstract.py:222-229 *)
Definition titled (name : string) (qs : list nat) (t : ttag) : string :=
  name ++ "(" ++ String.concat "," (map str_nat qs) ++ ")" ++ tag_text t.

Section WithTexts.
  Variable rounded : expr -> string.
  Variable is_real : expr -> bool.
  Variable support : block -> list nat.
  Variable other_title : tblock -> string.

  (** utils.py:188-198 [format_parameter(p, 3)] *)
  Definition format_parameter (e : expr) : string :=
    let conv_str := rounded e in
    if is_real e && (3 + 2 <? String.length conv_str) then substring 0 (3 + 2) conv_str else conv_str.

  (** [__rich_tree__] and [_block_title]: abstract.py:222-236, composite.py:71-78, primitive.py:269-275 (which leaves the tag of a
      ScaleBlock out) and 286-292, control_ops.py:56-61 (a controlled operation has no children). *)
  Definition leaf_title (a : block) (t : ttag) : string :=
    match a with BPrim p q => titled (prim_name p) [q] t | _ => other_title (TLeaf a t) end.
  Fixpoint rich (b : tblock) : rtree :=
    match b with
    | TLeaf a t => RNode (leaf_title a t) []
    | TCtrl par cs b' t => RNode (other_title b) []
    | TScale b' e _ => RNode ("\[mul: " ++ format_parameter e ++ "] ") [rich b']
    | TComp k bs t => RNode (titled (kind_name k) (support (erase b)) t) (map rich bs)
    end.
  (** utils.py:332 *)
  Definition formula (b : tblock) : option string := expression (rich b).

  (** model.py:691-697: the dictionary; a later entry replaces an earlier one with the same key, at its place.  An empty tag counts as none. *)
  Definition key_of (b : tblock) : string := match tag_of b with Some "" | None => "Obs." | Some s => s end.
  Definition dict_put (d : list (string * string)) (kv : string * string) : list (string * string) :=
    if existsb (fun e => String.eqb (fst e) (fst kv)) d
    then map (fun e => if String.eqb (fst e) (fst kv) then kv else e) d
    else (d ++ [kv])%list.
  Definition observables_to_expression (obs : list tblock) : option (list (string * string)) :=
    option_map (fun l => fold_left dict_put l []) (osequence (map (fun b => option_map (fun s => (key_of b, s)) (formula b)) obs)).
End WithTexts.
