(** Model of making a MatrixBlock and of its method [expand_to]: qadence/blocks/matrix.py:63-91 and 125-132.

    Simplifications: the matrix is of type complex128, so that the checks for unitary and Hermitian matrices, which only warn, do not raise;
    [int(log(size, 2))] is the integer part of the logarithm (it is computed in floating point); a result of [expand_to] with a batch
    dimension of 1 and one without are the same.  The register of qubits of the block is C01. *)
From Coq Require Import String Reals List Arith Bool.
From Coquelicot Require Import Coquelicot.
From Coq Require Import List.
From Verif Require Import S_Ops M_QubitSupport M_Block M_BlockOps M_Tensor.
Import ListNotations.
Open Scope nat_scope.

(** A torch tensor: its shape, and the entries of the last two dimensions. *)
Record given : Type := { shape : list nat; entries : nat -> nat -> C }.
Inductive made : Type := Made (m : tensor) (qs : list nat) | TypeError | ValueError.

(** matrix.py:73-74: a leading dimension of 1 is removed. *)
Definition squeeze (s : list nat) : list nat := match s with [1; a; b] => [a; b] | _ => s end.
(** matrix.py:63-91 [MatrixBlock.__init__]; [log] of 0 raises a ValueError too. *)
Definition matrix_block (m : given) (qs : list nat) : made :=
  match squeeze (shape m) with
  | [a; b] => if negb (Nat.eqb a b) then TypeError
              else if Nat.eqb b 0 then ValueError
              else if negb (Nat.eqb (Nat.log2 b) (length qs)) then ValueError
              else Made (mkT b (entries m)) qs
  | _ => TypeError
  end.
(** matrix.py:125-132 [expand_to] *)
Definition expand_to (m : tensor) (qs : list nat) (n_qubits : nat) : option tensor :=
  if Nat.ltb 1 n_qubits then t_fill_identities BIG m qs (seq 0 n_qubits) else Some m.
