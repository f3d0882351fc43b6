(** The norm of a state of a register of [n] qubits, and the distance of two operators. *)
From Coq Require Import Reals List.
From Coquelicot Require Import Coquelicot.
From Verif Require Import S_Ops S_PSR S_State.
Open Scope R_scope.

Definition norm (n : nat) (psi : St) : R := sqrt (fst (inner n psi psi)).
(** On every state the two operators differ by at most [e] times the norm of the state. *)
Definition near (n : nat) (e : R) (A B : Op) : Prop := forall psi, norm n (fun x => (A psi x - B psi x)%C) <= e * norm n psi.
