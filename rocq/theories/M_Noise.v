(** Model of qadence/noise/protocols.py (class NoiseHandler).
    Python lists are objects: handlers hold references to a protocol list and an option list.
    Every operation a caller can perform is a step on a heap of such lists. *)
From Coq Require Import String List Arith Bool.
Import ListNotations.
Open Scope string_scope.
Open Scope nat_scope.
Open Scope list_scope.

(** types.py:463-491: the three enumerations behind NoiseProtocol.  [member = false] is the enumeration class itself
    (as in the class docstring's [NoiseHandler(NoiseProtocol.READOUT, ...)]). *)
Inductive kind := Digital | Analog | Readout.
Record proto := { pkind : kind; pmember : bool; pid : nat }.
Definition kind_eqb (a b : kind) : bool := match a, b with Digital, Digital | Analog, Analog | Readout, Readout => true | _, _ => false end.
(** [isinstance(p, K)] and [type(p) is K] *)
Definition isinst (p : proto) (k : kind) : bool := pmember p && kind_eqb (pkind p) k.
(** Option dictionaries: keys with a value or None. *)
Definition opt := list (string * option nat).
Fixpoint dget (o : opt) (k : string) : option nat :=
  match o with [] => None | (k', v) :: r => if String.eqb k' k then v else dget r k end.

(** protocols.py:55-64 [_verify_single_protocol]: true when no exception is raised. *)
Definition verify_single (p : proto) (o : opt) : bool :=
  if negb (isinst p Readout) then
    match dget o (if isinst p Analog then "noise_probs" else "error_probability") with None => false | Some _ => true end
  else true.

(** types.count(K) *)
Definition tcount (k : kind) (ps : list proto) : nat := length (filter (fun p => isinst p k) ps).
Definition thas (k : kind) (ps : list proto) : bool := existsb (fun p => isinst p k) ps.

(** protocols.py:66-94 [verify_all_protocols] *)
Definition verify_all (ps : list proto) (os : list opt) : bool :=
  if Nat.eqb (length ps) 0 then false
  else if negb (Nat.eqb (length ps) (length os)) then false
  else if negb (forallb (fun po => verify_single (fst po) (snd po)) (combine ps os)) then false
  else if thas Digital ps && thas Analog ps then false
  else if thas Analog ps && (thas Readout ps || Nat.ltb 1 (tcount Analog ps)) then false
  else if thas Readout ps && (negb (match rev ps with p :: _ => isinst p Readout | [] => false end) || Nat.ltb 1 (tcount Readout ps)) then false
  else true.

(** The heap: list objects and the handlers (references to their two lists). *)
Record state := { plists : list (list proto); olists : list (list opt); handlers : list (nat * nat) }.
Definition pl (s : state) (r : nat) : list proto := nth r (plists s) [].
Definition ol (s : state) (r : nat) : list opt := nth r (olists s) [].
Definition protocols_of (s : state) (h : nat) : list proto := pl s (fst (nth h (handlers s) (0, 0))).
Definition options_of (s : state) (h : nat) : list opt := ol s (snd (nth h (handlers s) (0, 0))).
Definition new_pl (s : state) (l : list proto) : state * nat :=
  ({| plists := plists s ++ [l]; olists := olists s; handlers := handlers s |}, length (plists s)).
Definition new_ol (s : state) (l : list opt) : state * nat :=
  ({| plists := plists s; olists := olists s ++ [l]; handlers := handlers s |}, length (olists s)).

(** protocols.py:46-53 [__init__]: a list argument is kept by reference; a single one is wrapped in a new list.
    The result is the pair of references and whether verification passed. *)
Definition init (s : state) (p : proto + nat) (o : opt + nat) : state * (nat * nat) * bool :=
  let '(s1, pr) := match p with inl p => new_pl s [p] | inr r => (s, r) end in
  let '(s2, or) := match o with inl o => new_ol s1 (repeat o (length (pl s1 pr))) | inr r => (s1, r) end in
  (s2, (pr, or), verify_all (pl s2 pr) (ol s2 or)).

Definition add_handler (s : state) (h : nat * nat) : state :=
  {| plists := plists s; olists := olists s; handlers := handlers s ++ [h] |}.
Fixpoint set_nth {A} (n : nat) (x : A) (l : list A) : list A :=
  match l with [] => [] | y :: r => match n with O => x :: r | S m => y :: set_nth m x r end end.
Definition set_handler (s : state) (i : nat) (h : nat * nat) : state :=
  {| plists := plists s; olists := olists s; handlers := set_nth i h (handlers s) |}.

(** protocols.py:104-123 [append]: copies of the lists are extended with the lists of the others ([others] gives the
    references of each); the copies replace the handler's lists only if a temporary handler verifies. *)
Definition append (s : state) (h : nat) (others : list (nat * nat)) : state * bool :=
  let protocols := protocols_of s h ++ flat_map (fun r => pl s (fst r)) others in
  let options := options_of s h ++ flat_map (fun r => ol s (snd r)) others in
  let '(s1, pr) := new_pl s protocols in
  let '(s2, or) := new_ol s1 options in
  let '(s3, refs, ok) := init s2 (inr pr) (inr or) in
  if ok then (set_handler s3 h refs, true) else (s3, false).

(** protocols.py:151-160 [filter] with one of the three enumerations; [None] when nothing matches,
    [Some (.., false)] when the constructor raises. *)
Definition compress {A} (l : list A) (sel : list bool) : list A := map fst (List.filter snd (combine l sel)).
Definition filter_h (s : state) (h : nat) (k : kind) : state * option ((nat * nat) * bool) :=
  let matches := map (fun p => isinst p k) (protocols_of s h) in
  if existsb (fun b => b) matches then
    let '(s1, pr) := new_pl s (compress (protocols_of s h) matches) in
    let '(s2, or) := new_ol s1 (compress (options_of s h) matches) in
    let '(s3, refs, ok) := init s2 (inr pr) (inr or) in (s3, Some (refs, ok))
  else (s, None).

(** protocols.py:135-145 [_to_dict], [_from_dict] (the dictionary holds the two references). *)
Definition to_dict (s : state) (h : nat) : nat * nat := nth h (handlers s) (0, 0).
Definition from_dict (s : state) (d : option (nat * nat)) : option (state * (nat * nat) * bool) :=
  match d with
  | Some (p, o) => match pl s p with [] => None | _ => Some (init s (inr p) (inr o)) end
  | None => None
  end.

(** protocols.py:125-133 [__eq__] between two handlers. *)
Definition proto_eqb (a b : proto) : bool := kind_eqb (pkind a) (pkind b) && Bool.eqb (pmember a) (pmember b) && Nat.eqb (pid a) (pid b).
Definition opt_eq_dec : forall a b : opt, {a = b} + {a <> b}.
Proof. repeat decide equality. Defined.
Definition opt_eqb (a b : opt) : bool := if opt_eq_dec a b then true else false.
Definition eq_h (ps1 : list proto) (os1 : list opt) (ps2 : list proto) (os2 : list opt) : bool :=
  forallb (fun pq => proto_eqb (fst pq) (snd pq)) (combine ps1 ps2) && forallb (fun pq => opt_eqb (fst pq) (snd pq)) (combine os1 os2).

(** What a caller can do: create list objects, call the constructor, append, the builder methods (protocols.py:162-206:
    append of a freshly constructed handler), filter, rebuild from the dictionary form, and change a list in place.
    The boolean is false when the call raises. *)
Inductive op :=
| NewPList (l : list proto) | NewOList (l : list opt)
| Init (p : proto + nat) (o : opt + nat)
| Append (h : nat) (others : list nat)
| Builder (h : nat) (p : proto) (o : opt + nat)
| Filter (h : nat) (k : kind)
| FromDict (h : nat)
| MutateP (r : nat) (l : list proto) | MutateO (r : nat) (l : list opt).

Definition step (s : state) (a : op) : state * bool :=
  match a with
  | NewPList l => (fst (new_pl s l), true)
  | NewOList l => (fst (new_ol s l), true)
  | Init p o => let '(s1, refs, ok) := init s p o in if ok then (add_handler s1 refs, true) else (s1, false)
  | Append h others => if Nat.ltb h (length (handlers s)) then append s h (map (fun i => nth i (handlers s) (0, 0)) others) else (s, false)
  | Builder h p o =>
      if Nat.ltb h (length (handlers s)) then
        let '(s1, refs, ok) := init s (inl p) o in if ok then append s1 h [refs] else (s1, false)
      else (s, false)
  | Filter h k => match filter_h s h k with
                  | (s1, Some (refs, true)) => (add_handler s1 refs, true)
                  | (s1, Some (_, false)) => (s1, false)
                  | (s1, None) => (s1, true)
                  end
  | FromDict h => match from_dict s (Some (to_dict s h)) with
                  | Some (s1, refs, true) => (add_handler s1 refs, true)
                  | Some (s1, _, false) => (s1, false)
                  | None => (s, true)
                  end
  | MutateP r l => ({| plists := set_nth r l (plists s); olists := olists s; handlers := handlers s |}, true)
  | MutateO r l => ({| plists := plists s; olists := set_nth r l (olists s); handlers := handlers s |}, true)
  end.
Fixpoint run (s : state) (ops : list op) : state := match ops with [] => s | a :: r => run (fst (step s a)) r end.
Definition empty_state : state := {| plists := []; olists := []; handlers := [] |}.
