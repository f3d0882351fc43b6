(** Model of the sDAQC strategy of the quantum Fourier transform, qadence/constructors/qft.py:118-232.  [None] stands for a raised
    exception.  Floating-point numbers are modelled as reals.  torch.linalg.solve is the argument [solve] of M_Daqc.v. *)
From Coq Require Import String Reals ZArith List Arith Bool.
From Coquelicot Require Import Coquelicot.
From Coq Require Import List.
From Verif Require Import S_Ops M_QubitSupport M_Block M_BlockOps M_Tensor M_Transpile M_Names M_Hamiltonians M_Pauli M_Qft M_Daqc.
Import ListNotations.
Open Scope R_scope.
Open Scope nat_scope.

(** qft.py:124-126 [_theta]. *)
Definition theta (k : nat) : R := (PI / 2 ^ (k + 1))%R.
(** qft.py:129-134 [_alpha]; it is called with c < k, so that k - m is not negative when c is m. *)
Definition alpha (c m k : nat) : R := if Nat.eqb c m then (PI / 2 ^ (k - m + 2))%R else 0%R.

Section Q.
  Variable set_iter : list nat -> list nat.
  Variable rho : env.
  Variable solve : nat -> (nat -> nat -> R) -> list R -> option (list R).

  (** qft.py:137-154 [_sqg_gen], for 1 <= m <= n: one generator for each k of range(2, n - m + 2). *)
  Definition sqg_term (n : nat) (support : list nat) (m k : nat) : option block :=
    obind (osequence (map (fun j => at_ support j (BPrim PI_)) (seq 0 n))) (fun ids =>
    obind (mk_kron set_iter ids) (fun id =>
    obind (nth_error support (k + m - 2)) (fun a =>
    obind (nth_error support (m - 1)) (fun b =>
    Some (op_scale (op_sub (op_sub id (BPrim PZ a)) (BPrim PZ b)) (num (theta k))))))).
  Definition sqg_gen (n : nat) (support : list nat) (m : nat) (inverse : bool) : option (list block) :=
    let ks := seq 2 (n - m) in
    osequence (map (sqg_term n support m) (if inverse then rev ks else ks)).

  (** qft.py:157-171 [_tqg_gen]. *)
  Definition tqg_term (support : list nat) (m k c : nat) : option block :=
    obind (nth_error support (c - 1)) (fun a =>
    obind (nth_error support (k - 1)) (fun b =>
    obind (mk_kron set_iter [BPrim PZ a; BPrim PZ b]) (fun zz =>
    Some (op_scale zz (num (alpha c m k)))))).
  Definition tqg_gen (n : nat) (support : list nat) (m : nat) (inverse : bool) : option (list block) :=
    let ks := seq 2 (n - 1) in
    osequence (flat_map (fun k => map (tqg_term support m k) (seq 1 (k - 1))) (if inverse then rev ks else ks)).

  (** qft.py:196-198: the supports that are not refused. *)
  Definition allowed_support (n : nat) (support : list nat) : bool :=
    (if list_eq_dec Nat.eq_dec support (seq 0 n) then true else false) || (if list_eq_dec Nat.eq_dec support (rev (seq 0 n)) then true else false).
  (** qft.py:174-232 [_qft_layer_sDAQC]; daqc_transform is called with its default cut-off 1e-08 and global phases kept (daqc.py:19-27). *)
  Definition qft_layer_sdaqc (n : nat) (gen_build : option block) (support : list nat) (layer : nat) (inverse : bool) : option block :=
    if negb (allowed_support n support) then None else
    obind (match gen_build with
           | Some g => Some g
           | None => hamiltonian_factory set_iter block_is_qubit_hamiltonian (alltoall n) (Some INN) None SNone SNone None false
           end) (fun g =>
    let m := layer + 1 in
    obind (sqg_gen n support m inverse) (fun sqg =>
    obind (tqg_gen n support m inverse) (fun tqg =>
    obind (nth_error support (m - 1)) (fun h =>
    match sqg with
    | [] => Some (BChain [BPrim PH h])
    | _ =>
        obind (daqc_transform set_iter rho solve (nqubits set_iter g) (BAdd tqg) (-1) (Some g) (1 / 10 ^ 8) true false) (fun d =>
        let circ := BChain [BChain [BPrim PH h; BEvo (BAdd sqg) (num (-1))]; d] in
        Some (if inverse then dagger circ else circ))
    end)))).

  (** qft.py:15-84 with strategy sDAQC. *)
  Definition qft_sdaqc (n : nat) (support : option (list nat)) (inverse reverse_in swaps_out : bool) (gen_build : option block) : option block :=
    qft_of (qft_layer_sdaqc n gen_build) n support inverse reverse_in swaps_out.
End Q.
