(** Model of the parameter objects of qadence/parameters.py: [Parameter.__new__] from a name or a parameter, [__eq__], [__hash__],
    [_to_dict], [_from_dict] and [evaluate].  sympy is external; what is used of it is part of the model: [Symbol.__new__] drops assumptions that are None,
    turns the others into booleans (Symbol._sanitize) and looks the symbol up in a least-recently-used cache of 1000 entries whose keys are the class, the name and the
    assumptions in the order given (sympy.core.cache.cacheit, functools.lru_cache); the hash of a symbol is that of its name and its sorted
    assumptions.  So two calls may return one object, and the constructor then writes its attributes again.  Values are complex numbers
    (tensors and infinities are not modelled); [rand(1).item()] is an argument of each call. *)
From Coq Require Import String Reals List Arith Bool.
From Coquelicot Require Import Coquelicot.
From Coq Require Import List.
Import ListNotations.
Open Scope R_scope.

(** Keyword arguments, in the order they are written (parameters.py:66-68). *)
Inductive kwarg := Trainable (b : bool) | Value (v : option C) | Is_time (b : bool).
Inductive kwname := KTrainable | KValue | KTime.
Definition kwname_eqb (a b : kwname) : bool := match a, b with KTrainable, KTrainable | KValue, KValue | KTime, KTime => true | _, _ => false end.
Definition is_zero (v : C) : bool := (if Req_EM_T (fst v) 0 then true else false) && (if Req_EM_T (snd v) 0 then true else false).
(** Symbol._sanitize. *)
Definition sanitize1 (k : kwarg) : list (kwname * bool) :=
  match k with
  | Trainable b => [(KTrainable, b)]
  | Value None => []
  | Value (Some v) => [(KValue, negb (is_zero v))]
  | Is_time b => [(KTime, b)]
  end.
Definition sanitize (ks : list kwarg) : list (kwname * bool) := flat_map sanitize1 ks.
Definition key := (string * list (kwname * bool))%type.
Fixpoint assumptions_eqb (a b : list (kwname * bool)) : bool :=
  match a, b with
  | [], [] => true
  | x :: a, y :: b => kwname_eqb (fst x) (fst y) && Bool.eqb (snd x) (snd y) && assumptions_eqb a b
  | _, _ => false
  end.
Definition key_eqb (a b : key) : bool := String.eqb (fst a) (fst b) && assumptions_eqb (snd a) (snd b).

(** A parameter object: [assumed] is the key it was created with, the rest its attributes (parameters.py:55-64). *)
Record param := Param { assumed : key; trainable : bool; value : C; is_time : bool }.
Definition pname (p : param) : string := fst (assumed p).
(** The cache, most recently used first, the objects in memory, and the next address. *)
Record world := World { cache : list (key * nat); objects : nat -> option param; fresh : nat }.
Definition empty : world := World [] (fun _ => None) 0.
(** sympy.core.cache: SYMPY_CACHE_SIZE. *)
Definition capacity : nat := 1000.
Definition cached (k : key) (l : list (key * nat)) : option nat := option_map snd (find (fun e => key_eqb (fst e) k) l).
(** Symbol.__xnew_cached_: the address of the symbol, and the cache after the call. *)
Definition symbol (k : key) (w : world) : nat * world :=
  match cached k (cache w) with
  | Some a => (a, World ((k, a) :: filter (fun e => negb (key_eqb (fst e) k)) (cache w)) (objects w) (fresh w))
  | None => (fresh w, World (firstn capacity ((k, fresh w) :: cache w)) (objects w) (S (fresh w)))
  end.
Definition set_object (a : nat) (p : param) (w : world) : world := World (cache w) (fun b => if Nat.eqb b a then Some p else objects w b) (fresh w).

Definition get_trainable (ks : list kwarg) : bool := match find (fun k => match k with Trainable _ => true | _ => false end) ks with Some (Trainable b) => b | _ => true end.
Definition get_value (ks : list kwarg) : option C := match find (fun k => match k with Value _ => true | _ => false end) ks with Some (Value v) => v | _ => None end.
Definition get_time (ks : list kwarg) : bool := match find (fun k => match k with Is_time _ => true | _ => false end) ks with Some (Is_time b) => b | _ => false end.

(** parameters.py:122-129: Parameter("name", **assumptions). *)
Definition new_param (name : string) (ks : list kwarg) (rand : C) (w : world) : nat * world :=
  let k := (name, sanitize ks) in
  let '(a, w) := symbol k w in
  (a, set_object a (Param k (get_trainable ks) (match get_value ks with Some v => v | None => rand end) (get_time ks)) w).
(** parameters.py:111-117: Parameter(parameter, **assumptions). *)
Definition copy_param (b : nat) (ks : list kwarg) (w : world) : option (nat * world) :=
  match objects w b with
  | None => None
  | Some p =>
      let k := (pname p, sanitize ks) in
      let '(a, w) := symbol k w in
      Some (a, set_object a (Param k (trainable p) (value p) (is_time p)) w)
  end.
(** parameters.py:174-187. *)
Definition FeatureParameter (name : string) (v : option C) (rand : C) (w : world) := new_param name (Trainable false :: match v with Some _ => [Value v] | None => [] end) rand w.
Definition VariationalParameter (name : string) (v : option C) (rand : C) (w : world) := new_param name (Trainable true :: match v with Some _ => [Value v] | None => [] end) rand w.
Definition TimeParameter (name : string) (rand : C) (w : world) := new_param name [Trainable false; Is_time true] rand w.

(** utils.py:213-219 with the default tolerances (math.isclose is the same formula). *)
Definition isclose (x y : C) : Prop := Cmod (x - y)%C <= Rmax (/ 100000 * Rmax (Cmod x) (Cmod y)) (/ 10000000).
(** parameters.py:139-144, between two parameters. *)
Definition param_eq (p q : param) : Prop := pname p = pname q /\ trainable p = trainable q /\ isclose (value p) (value q).
(** parameters.py:152-153: what the hash is computed from. *)
Definition assumes (p : param) (k : kwname) (b : bool) : Prop := In (k, b) (snd (assumed p)).
Definition same_hash (p q : param) : Prop := pname p = pname q /\ forall k b, assumes p k b <-> assumes q k b.

(** parameters.py:155-171; writing a number and reading it back are arguments. *)
Section Dict.
  Variable V : Type.
  Variable str_of : C -> V.
  Variable float_of : V -> C.
  Definition to_dict (p : param) : string * string * V := (pname p, (if trainable p then "True" else "False")%string, str_of (value p)).
  Definition from_dict (d : string * string * V) (w : world) : nat * world :=
    let '(n, t, v) := d in new_param n [Trainable (String.eqb t "True"%string); Value (Some (float_of v))] (RtoC 0) w.
End Dict.

(** Expressions whose symbols are objects or plain sympy symbols. *)
Inductive pexpr := ESym (a : nat) | EPlain (name : string) | ENum (c : C) | ESum (x y : pexpr) | EProd (x y : pexpr) | EFun (f : C -> C) (x : pexpr).
Fixpoint free_symbols (e : pexpr) : list pexpr :=
  match e with
  | ESym a => [ESym a]
  | EPlain n => [EPlain n]
  | ENum _ => []
  | ESum x y | EProd x y => free_symbols x ++ free_symbols y
  | EFun _ x => free_symbols x
  end.
Definition lookup (n : string) (d : list (string * C)) : option C := option_map snd (find (fun e => String.eqb (fst e) n) d).
(** parameters.py:266-273: the value of one symbol. *)
Definition query (w : world) (values : list (string * C)) (s : pexpr) : option C :=
  match s with
  | ESym a => match objects w a with Some p => match lookup (pname p) values with Some v => Some v | None => Some (value p) end | None => None end
  | EPlain n => lookup n values
  | _ => None
  end.
Definition symbol_name (w : world) (s : pexpr) : option string := match s with ESym a => option_map pname (objects w a) | EPlain n => Some n | _ => None end.
(** Substitution of values for the symbols and evaluation. *)
Fixpoint subs (f : pexpr -> option C) (e : pexpr) : option C :=
  match e with
  | ENum c => Some c
  | ESum x y => match subs f x, subs f y with Some a, Some b => Some (a + b)%C | _, _ => None end
  | EProd x y => match subs f x, subs f y with Some a, Some b => Some (a * b)%C | _, _ => None end
  | EFun g x => option_map g (subs f x)
  | s => f s
  end.
Fixpoint all_some {A} (l : list (option A)) : bool := match l with [] => true | Some _ :: r => all_some r | None :: _ => false end.
(** parameters.py:220-283 [evaluate].  [order] is the iteration order of the set of free symbols.  With [as_torch] the values are passed
    by name (the last one wins), otherwise symbol by symbol. *)
Definition evaluate (order : list pexpr -> list pexpr) (w : world) (e : pexpr) (values : list (string * C)) (as_torch : bool) : option C :=
  let syms := order (free_symbols e) in
  if negb (all_some (map (query w values) syms)) then None
  else if as_torch then
    let by_name := flat_map (fun s => match symbol_name w s, query w values s with Some n, Some v => [(n, v)] | _, _ => [] end) (rev syms) in
    subs (fun s => match symbol_name w s with Some n => lookup n by_name | None => None end) e
  else subs (query w values) e.
