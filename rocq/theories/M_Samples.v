(** Model of qadence/measurements/samples.py ([compute_expectation] from given samples) and of the predicate [_is_diag_pauli] of
    qadence/blocks/abstract.py.  The estimator itself, [pauli_z_expectation] of qadence/measurements/utils.py, is in M_Measure.v and
    the decomposition into terms in M_Pauli.v.  An exception is [None]. *)
From Coq Require Import String Reals List Arith Bool.
From Coquelicot Require Import Coquelicot.
From Coq Require Import List.
From Verif Require Import S_Ops M_QubitSupport M_Block M_BlockOps M_Transpile M_Pauli M_Measure.
Import ListNotations.

(** abstract.py:316-330.  Every block of the model that is neither composite nor a ScaleBlock is a PrimitiveBlock; the names "Z" and
    "I" belong to these two only. *)
Fixpoint is_diag_pauli (b : block) : bool :=
  block_is_qubit_hamiltonian b &&
  match b with
  | BChain bs | BKron bs | BAdd bs => forallb is_diag_pauli bs
  | BScale b' _ => is_diag_pauli b'
  | BPrim PZ _ | BPrim PI_ _ => true
  | _ => false
  end.

(** samples.py:13-38 for a list of observables: one list of estimates (one for each sample) per observable; TypeError when an observable
    is not made of Z and I or is an identity. *)
Definition compute_expectation (set_iter : list nat -> list nat) (rho : env) (observable : list block) (samples : list counter)
  : option (list (list R)) :=
  osequence (map (fun obs =>
    let decomposition := unroll_block_with_scaling obs in
    if negb (is_diag_pauli obs) || is_identity obs then None
    else pauli_z_expectation set_iter rho decomposition samples) observable).
