(** Inner products, probabilities and expectation values on a register of [n] qubits (qubit 0 is the first bit).
    Nothing in this file refers to the library code. *)
From Coq Require Import Reals List.
From Coquelicot Require Import Coquelicot.
From Verif Require Import S_Ops S_PSR.
Import ListNotations.
Open Scope R_scope.
Open Scope C_scope.

(** <phi|psi> *)
Definition inner (n : nat) (phi psi : St) : C := csum (fun r => Cconj (amps n phi r) * amps n psi r) (bits n).
(** |amplitude|^2 of the outcome [r]. *)
Definition prob (n : nat) (psi : St) (r : list bool) : R := (fst (amps n psi r) ^ 2 + snd (amps n psi r) ^ 2)%R.
Definition normalised (n : nat) (psi : St) : Prop := inner n psi psi = RtoC 1.
(** <psi|A|psi> *)
Definition expval (n : nat) (psi : St) (A : Op) : C := inner n psi (A psi).
