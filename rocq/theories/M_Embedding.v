(** Model of qadence/blocks/embedding.py, of [stringify] in qadence/parameters.py and of [merge_separate_params] in qadence/utils.py. *)
From Coq Require Import String Ascii List Arith Bool ZArith.
Import ListNotations.
Open Scope string_scope.
Open Scope list_scope.

(** Python dictionaries with string keys: insertion order, assignment replaces in place. *)
Section Dict.
  Context {V : Type}.
  Definition sdict := list (string * V).
  Fixpoint get (d : sdict) (k : string) : option V :=
    match d with [] => None | (k', v) :: r => if String.eqb k' k then Some v else get r k end.
  Definition has (d : sdict) (k : string) : bool := match get d k with Some _ => true | None => false end.
  Fixpoint set (d : sdict) (k : string) (v : V) : sdict :=
    match d with [] => [(k, v)] | (k', v') :: r => if String.eqb k' k then (k', v) :: r else (k', v') :: set r k v end.
  (** d.update(e), d |= e *)
  Definition update (d e : sdict) : sdict := fold_left (fun acc kv => set acc (fst kv) (snd kv)) e d.
End Dict.
Arguments sdict : clear implicits.

(** str.replace(".", "_") *)
Fixpoint replace_dots (s : string) : string :=
  match s with
  | EmptyString => EmptyString
  | String c r => String (if Ascii.eqb c "."%char then "_"%char else c) (replace_dots r)
  end.

(** parameters.py:47-64: a symbol of an expression. *)
Record symbol (V : Type) := Sym { s_name : string; s_trainable : bool; s_time : bool; s_value : V }.
Arguments Sym {V}. Arguments s_name {V}. Arguments s_trainable {V}. Arguments s_time {V}. Arguments s_value {V}.

(** The user's inputs: a flat dictionary, or dictionaries under keys such as "circuit" and "observables". *)
Inductive inputs_t (V : Type) := Flat (d : sdict V) | Nested (d : list (string * sdict V)).
Arguments Flat {V}. Arguments Nested {V}.

Section Embedding.
  (** Expressions as sympy sees them: equality, free symbols (in the iteration order of the set), whether it is a number or an
      Array, printed form. *)
  Variable E V : Type.
  Variable eqE : forall a b : E, {a = b} + {a <> b}.
  Variable free : E -> list (symbol V).
  Variable is_number is_array : E -> bool.
  Variable str_of hash_of array_str : E -> string.
  (** make_differentiable: the compiled function, called with keyword arguments. *)
  Variable fn : E -> sdict V -> V.
  (** [angle.reshape(-1)] unless multi-dimensional; [as_tensor(v)[None]] for scalars; [tensor(1.0)]. *)
  Variable reshape expand : V -> V.
  Variable one : V.
  (** concretize_parameter(evaluate(expr)), the tensor of an Array, concretize_parameter(p.value). *)
  Variable const_value array_value : E -> V.
  Variable concretize : V -> V.
  (** list(set(.)) *)
  Variable uniqE : list E -> list E.
  Variable uniqS : list (symbol V) -> list (symbol V).

  (** parameters.py:286-296. *)
  Definition stringify (e : E) : string :=
    if is_array e then replace_dots (array_str e)
    else if is_number e then "fix_" ++ hash_of e else replace_dots (str_of e).

  (** The block enters only through its dictionary uuid -> expression (blocks/utils.py:216-252, modelled in M_Trainable). *)
  Variable uuid_to_expr : list (string * E).

  (** embedding.py:93-96: the expressions of the block, without duplicates. *)
  Definition unique_expressions : list E := filter (fun e => negb (is_array e)) (uniqE (map snd uuid_to_expr)).
  Definition unique_const_matrices : list E := filter is_array (uniqE (map snd uuid_to_expr)).
  (** embedding.py:94, 108-109 with blocks/utils.py:201-213: the symbols occurring in the expressions. *)
  Definition trainable_symbols : list (symbol V) :=
    filter s_trainable (uniqS (flat_map free (map snd uuid_to_expr))).
  (** embedding.py:110. *)
  Definition constant_expressions : list E := filter is_number unique_expressions.
  (** embedding.py:114-118. *)
  Definition embedded_exprs : list E := filter (fun e => negb (is_number e)) unique_expressions.

  (** embedding.py:171-188: the variational parameters returned to the caller. *)
  Definition initial_params : sdict V :=
    update (update (update [] (map (fun p => (s_name p, concretize (s_value p))) trainable_symbols))
              (map (fun e => (stringify e, const_value e)) constant_expressions))
       (map (fun e => (stringify e, array_value e)) unique_const_matrices).

  (** utils.py:33-38 and embedding.py:124-125. *)
  Definition merge_separate_params (d : list (string * sdict V)) : sdict V := fold_left (fun acc p => update acc (snd p)) d [].
  Definition effective_inputs (i : inputs_t V) : option (sdict V) :=
    match i with
    | Flat d => if has d "circuit" || has d "observables" then None else Some d
    | Nested d => if existsb (fun p => String.eqb (fst p) "circuit" || String.eqb (fst p) "observables") d
                  then Some (merge_separate_params d) else None
    end.

  (** embedding.py:129-144: the value of one symbol.  [None] is KeyError. *)
  Definition symbol_value (params inputs : sdict V) (s : symbol V) : option V :=
    match get inputs (s_name s) with
    | Some v => Some v
    | None => match get params (s_name s) with
              | Some v => Some v
              | None => if s_time s then Some one else None
              end
    end.
  Fixpoint symbol_values (params inputs : sdict V) (l : list (symbol V)) (values : sdict V) : option (sdict V) :=
    match l with
    | [] => Some values
    | s :: r => match symbol_value params inputs s with
                | Some v => symbol_values params inputs r (set values (s_name s) v)
                | None => None
                end
    end.

  (** Dictionaries keyed by expressions. *)
  Definition edict := list (E * V).
  Fixpoint eget (d : edict) (k : E) : option V :=
    match d with [] => None | (k', v) :: r => if eqE k' k then Some v else eget r k end.
  Fixpoint eset (d : edict) (k : E) (v : V) : edict :=
    match d with [] => [(k, v)] | (k', v') :: r => if eqE k' k then (k', v) :: r else (k', v') :: eset r k v end.

  (** embedding.py:126-150. *)
  Fixpoint embed_exprs (params inputs : sdict V) (l : list E) (acc : edict) : option edict :=
    match l with
    | [] => Some acc
    | e :: r => match symbol_values params inputs (free e) [] with
                | Some values => embed_exprs params inputs r (eset acc e (reshape (fn e values)))
                | None => None
                end
    end.
  (** embedding.py:152-153. *)
  Fixpoint embed_consts (params : sdict V) (l : list E) (acc : edict) : option edict :=
    match l with
    | [] => Some acc
    | e :: r => match get params (stringify e) with Some v => embed_consts params r (eset acc e v) | None => None end
    end.
  Definition embedded (params inputs : sdict V) : option edict :=
    match embed_exprs params inputs embedded_exprs [] with
    | Some acc => embed_consts params (constant_expressions ++ unique_const_matrices) acc
    | None => None
    end.

  (** embedding.py:155-159: one entry per gate parameter. *)
  Fixpoint gate_entries (d : edict) (l : list (string * E)) (acc : sdict V) : option (sdict V) :=
    match l with
    | [] => Some acc
    | (u, e) :: r => match eget d e with Some v => gate_entries d r (set acc u v) | None => None end
    end.
  Definition embedding_gate (params : sdict V) (inputs : inputs_t V) : option (sdict V) :=
    match effective_inputs inputs with
    | Some i => match embedded params i with Some d => gate_entries d uuid_to_expr [] | None => None end
    | None => None
    end.

  (** embedding.py:160-170: one entry per expression, then the inputs, then the parameters not among the inputs; the keys are
      made strings at the end and later entries win. *)
  Definition embedding_expr (params : sdict V) (inputs : inputs_t V) : option (sdict V) :=
    match effective_inputs inputs with
    | Some i => match embedded params i with
                | Some d =>
                    let rest := filter (fun kv => negb (has i (fst kv))) params in
                    Some (update [] (map (fun ev => (stringify (fst ev), expand (snd ev))) d
                                     ++ map (fun kv => (fst kv, expand (snd kv))) (update [] i)
                                     ++ map (fun kv => (fst kv, expand (snd kv))) rest))
                | None => None
                end
    | None => None
    end.
End Embedding.
