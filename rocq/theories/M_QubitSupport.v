(** Model of qadence/qubit_support.py (QubitSupport, a subclass of tuple). *)
From Coq Require Import List ZArith Arith Bool.
Import ListNotations.

(** Python values a caller may put in the argument list of [QubitSupport(...)]:
    the marker "global", an integer, or a tuple of such values.  Other types are not modelled
    (they fail the comparison [>= 0] with a TypeError, like a nested marker). *)
Inductive item : Type :=
| IGlobal
| INum (z : Z)
| ITup (l : list item).

Inductive qerr : Type := EValue | EType.
Inductive qres (A : Type) : Type := QOk (a : A) | QErr (e : qerr).
Arguments QOk {A} _.  Arguments QErr {A} _.

(** A constructed support: the tuple ("global",) or a tuple of non-negative ints. *)
Inductive support : Type := SGlobal | SLocal (l : list nat).

(** qadence/qubit_support.py:8-9 [_is_valid_support]: [all(i >= 0 for i in t)].
    [all] stops at the first false element; comparing a str or tuple with 0 raises TypeError. *)
Fixpoint all_nonneg (l : list item) : qres bool :=
  match l with
  | [] => QOk true
  | INum z :: r => if (0 <=? z)%Z then all_nonneg r else QOk false
  | _ :: _ => QErr EType
  end.

(** The integers of a list of items (used only once all items are known to be ints). *)
Fixpoint nums (l : list item) : list nat :=
  match l with
  | [] => []
  | INum z :: r => Z.to_nat z :: nums r
  | _ :: r => nums r
  end.

(** qadence/qubit_support.py:14-16: a single tuple argument is unwrapped, recursively. *)
Fixpoint unwrap_item (i : item) : list item :=
  match i with
  | ITup [j] => match j with ITup _ => unwrap_item j | _ => [j] end
  | ITup l => l
  | _ => [i]
  end.

Definition unwrap (args : list item) : list item :=
  match args with [ITup l] => unwrap_item (ITup l) | _ => args end.

(** qadence/qubit_support.py:13-33 [QubitSupport.__new__]. *)
Definition qs_new (args : list item) : qres support :=
  match unwrap args with
  | [IGlobal] => QOk SGlobal
  | [INum z] => if (0 <=? z)%Z then QOk (SLocal [Z.to_nat z]) else QErr EValue
  | l =>
      match all_nonneg l with
      | QOk true => QOk (SLocal (nums l))
      | QOk false => QErr EValue
      | QErr e => QErr e
      end
  end.

(** Tuple equality [self == other] on supports. *)
Definition support_eqb (a b : support) : bool :=
  match a, b with
  | SGlobal, SGlobal => true
  | SLocal x, SLocal y => if list_eq_dec Nat.eq_dec x y then true else false
  | _, _ => false
  end.

(** [range(max(l) + 1)], with ["global"] when [l] is empty (qubit_support.py:41,43). *)
Definition range_to_max (l : list nat) : support :=
  match l with
  | [] => SGlobal
  | _ => SLocal (seq 0 (list_max l + 1))
  end.

Section WithSetOrder.
  (** [set_iter l] is the order in which Python iterates the set built from the elements of [l]
      (unspecified by the language); its only assumed properties are stated in the theorems. *)
  Variable set_iter : list nat -> list nat.

  (** qadence/qubit_support.py:35-45 [QubitSupport.__add__] ([other] a tuple); [__radd__] (47-48) is
      the same function. *)
  Definition qs_add (self other : support) : support :=
    if support_eqb self other then self
    else match self, other with
         | SGlobal, SLocal l => range_to_max l
         | SLocal l, SGlobal => range_to_max l
         | SLocal a, SLocal b => SLocal (set_iter (a ++ b))
         | SGlobal, SGlobal => SGlobal
         end.
End WithSetOrder.

(** qadence/qubit_support.py:54-61 [QubitSupport.is_disjoint]. *)
Definition qs_is_disjoint (self other : support) : bool :=
  match self, other with
  | SLocal a, SLocal b => negb (existsb (fun q => existsb (Nat.eqb q) b) a)
  | _, _ => false
  end.
