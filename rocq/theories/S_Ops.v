(** Operator semantics of quantum circuits: the textbook meaning used as specification.

    A state is an amplitude for every assignment of a bit to every qubit.  A gate with matrix [G] on the
    ordered qubits [qs] acts by  (G psi)(x) = sum_y G[x|qs, y] * psi(x[qs := y]).
    Nothing in this file refers to the library code. *)
From Coq Require Import Reals List Arith Bool.
From Coquelicot Require Import Coquelicot.
Import ListNotations.
Open Scope R_scope.
Open Scope C_scope.

(** A bit for each qubit. *)
Definition asg := nat -> bool.
Definition St := asg -> C.
Definition Op := St -> St.

Definition upd (x : asg) (q : nat) (b : bool) : asg :=
  fun k => if Nat.eqb k q then b else x k.
Fixpoint upds (x : asg) (qs : list nat) (bs : list bool) : asg :=
  match qs, bs with
  | q :: qs', b :: bs' => upd (upds x qs' bs') q b
  | _, _ => x
  end.

(** All bit strings of length [n], in increasing order, most significant bit first. *)
Fixpoint bits (n : nat) : list (list bool) :=
  match n with
  | O => [[]]
  | S k => map (cons false) (bits k) ++ map (cons true) (bits k)
  end.

Fixpoint csum {A : Type} (f : A -> C) (l : list A) : C :=
  match l with [] => 0 | a :: r => f a + csum f r end.

Fixpoint cpow (z : C) (k : nat) : C := match k with O => 1 | S j => z * cpow z j end.

(** Matrices indexed by bit strings: row, column. *)
Definition bmat := list bool -> list bool -> C.

(** A matrix applied to the ordered qubits [qs]. *)
Definition gate (qs : list nat) (G : bmat) : Op :=
  fun psi x => csum (fun y => G (map x qs) y * psi (upds x qs y)) (bits (length qs)).

Definition idop : Op := fun psi => psi.
Definition zeroop : Op := fun _ _ => 0.
Definition addop (A B : Op) : Op := fun psi x => A psi x + B psi x.
Definition scaleop (c : C) (A : Op) : Op := fun psi x => c * A psi x.
(** First [A], then [B]. *)
Definition seqop (A B : Op) : Op := fun psi => B (A psi).
(** [U] where all control bits are 1, nothing elsewhere. *)
Definition ctrlop (cs : list nat) (U : Op) : Op :=
  fun psi x => if forallb x cs then U psi x else psi x.
(** Exchange of the bits of two qubits. *)
Definition swapop (a b : nat) : Op :=
  fun psi x => psi (upd (upd x a (x b)) b (x a)).

(** The matrix of an operator on the qubits [fs] (qubit [fs[0]] is the most significant bit):
    entry (r, c) is the amplitude of basis state [r] in the image of basis state [c]. *)
Definition zeros : asg := fun _ => false.
Definition eqbits (a b : list bool) : bool := if list_eq_dec Bool.bool_dec a b then true else false.
Definition ket (fs : list nat) (c : list bool) : St :=
  fun x => if eqbits (map x fs) c then 1 else 0.
Definition matof (fs : list nat) (A : Op) : bmat :=
  fun r c => A (ket fs c) (upds zeros fs r).

(** Reading a bit string as an integer, most significant bit first. *)
Definition b2n (b : bool) : nat := if b then 1%nat else 0%nat.
Fixpoint bits_to_nat (l : list bool) : nat :=
  match l with [] => 0 | b :: r => b2n b * 2 ^ length r + bits_to_nat r end%nat.

(** Conjugate transpose. *)
Definition badj (M : bmat) : bmat := fun r c => Cconj (M c r).
