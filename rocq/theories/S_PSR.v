(** What an expectation value is as a function of one gate parameter: the specification used for the
    parameter-shift rules.  Nothing here refers to the library code. *)
From Coq Require Import String Reals List.
From Coquelicot Require Import Coquelicot.
From Verif Require Import S_Ops S_Den.
Import ListNotations.
Open Scope R_scope.
Open Scope C_scope.

(** A state on [n] qubits that depends on a parameter t through eigenphases: the sum over the components
    (l, v) of  e^(-i t l / 2) v.   [l] ranges over eigenvalues of the generator. *)
Definition evolved (comps : list (R * (list bool -> C))) (t : R) : list bool -> C :=
  fun r => csum (fun p => cis (- (t * fst p / 2))%R * snd p r) comps.

(** <v| O |v> for a matrix O on n qubits. *)
Definition quad (n : nat) (O : bmat) (v : list bool -> C) : C :=
  csum (fun r => csum (fun c => Cconj (v r) * O r c * v c) (bits n)) (bits n).

(** The (real) expectation of O in the evolved state. *)
Definition expectation (n : nat) (O : bmat) (comps : list (R * (list bool -> C))) (t : R) : R :=
  fst (quad n O (evolved comps t)).

(** The amplitudes, on the qubits 0..n-1, of a state. *)
Definition amps (n : nat) (psi : St) : list bool -> C := fun r => psi (upds zeros (seq 0 n) r).

(** The parameter values with the parameter [name] set to [v]. *)
Definition with_param (rho : string -> R) (name : string) (v : R) : string -> R := fun k => if string_dec k name then v else rho k.
