(** Model of the analog blocks of qadence/blocks/analog.py: durations and supports.  Durations are the values returned by
    [evaluate] on the duration expression. *)
From Coq Require Import Reals List Bool.
From Verif Require Import M_PSR M_QubitSupport.
Import ListNotations.
Open Scope R_scope.

(** InteractionBlock (analog.py:101-140), ConstantAnalogRotation (143-203) and AnalogEntanglement (operations/analog.py:88-99)
    are leaves with a duration and a support; AnalogChain (248-281); AnalogKron (284-322). *)
Inductive ablock : Type :=
| ALeaf (dur : R) (sup : support)
| AChain (blocks : list ablock)
| AKron (blocks : list ablock).

(** analog.py:138-140, 201-203, 279-281 and 320-322 (an empty kron cannot be constructed). *)
Fixpoint duration (b : ablock) : R :=
  match b with
  | ALeaf d _ => d
  | AChain bs => rsum (map duration bs)
  | AKron bs => match bs with [] => 0 | b0 :: _ => duration b0 end
  end.

Section SetOrder.
  Variable set_iter : list nat -> list nat.
  (** analog.py:220-222: sum over the parts, starting from the empty support. *)
  Fixpoint qubit_support (b : ablock) : support :=
    match b with
    | ALeaf _ s => s
    | AChain bs | AKron bs => fold_left (fun acc x => qs_add set_iter acc x) (map qubit_support bs) (SLocal [])
    end.
  Definition is_kron (b : ablock) : bool := match b with AKron _ => true | _ => false end.
  Definition is_global (s : support) : bool := match s with SGlobal => true | _ => false end.
  (** analog.py:274-277.  [None]: ValueError. *)
  Definition mk_chain (bs : list ablock) : option ablock :=
    if forallb (fun b => is_kron b || is_global (qubit_support b)) bs then Some (AChain bs) else None.

  (** numpy.isclose with its default tolerances. *)
  Definition np_isclose (a b : R) : bool := if Rle_dec (Rabs (a - b)) (1 / 10 ^ 8 + 1 / 10 ^ 5 * Rabs b) then true else false.
  (** analog.py:295-318.  [None]: NotImplementedError or ValueError. *)
  Fixpoint kron_loop (d : R) (acc : support) (bs : list ablock) : bool :=
    match bs with
    | [] => true
    | b :: r =>
        if is_global (qubit_support b) then false
        else if negb (qs_is_disjoint acc (qubit_support b)) then false
        else if negb (np_isclose d (duration b)) then false
        else kron_loop d (qs_add set_iter acc (qubit_support b)) r
    end.
  Definition mk_kron (bs : list ablock) : option ablock :=
    match bs with
    | [] => None
    | b0 :: _ => if kron_loop (duration b0) (SLocal []) bs then Some (AKron bs) else None
    end.
End SetOrder.
