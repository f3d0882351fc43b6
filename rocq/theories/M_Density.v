(** Model of the functions on density matrices and of [equivalent_state] in qadence/states.py:590-720.
    A batch is a list of matrices (S_Mat.v) or of rows of amplitudes; [d] is the dimension of the matrices.  [eigvalsh] and [eigh] stand for
    torch.linalg's functions of the same name; what is assumed of them is written in P_Density.v ([eigh_ok]).  Real numbers instead of floats.
    [partial_trace] (states.py:601-617) is a call of pyqtorch and is not modelled. *)
From Coq Require Import Reals List Arith Bool.
From Coquelicot Require Import Coquelicot.
From Coq Require Import List.
From Verif Require Import S_Ops S_Mat M_Basis M_Information M_Overlap.
Import ListNotations.
Open Scope R_scope.

Section Linalg.
  Variable eigvalsh : nat -> mat -> list R.
  Variable eigh : nat -> mat -> list R * mat.

  (** states.py:620-653, one matrix of the batch: eigenvalues divided by their sum, those below [eps] replaced by [eps]. *)
  Definition entropy_row (d : nat) (eps : R) (rho : mat) : R :=
    let eigenvalues := eigvalsh d rho in
    let eigenvalues := map (fun x => x / rsum eigenvalues) eigenvalues in
    let valid_eigenvalues := map (fun x => if rltb x eps then eps else x) eigenvalues in
    - rsum (map (fun x => x * ln x / ln 2) valid_eigenvalues).
  (** states.py:620-653. *)
  Definition von_neumann_entropy (d : nat) (rho : list mat) (eps : R) : list R := map (entropy_row d eps) rho.

  (** states.py:656-670. *)
  Definition purity (d : nat) (rho : list mat) (order : nat) : list R :=
    map (fun r => rsum (map (fun x => x ^ order) (eigvalsh d r))) rho.

  (** states.py:694, 712: torch.clamp with min=0. *)
  Definition clamp0 (l : list R) : list R := map (fun x => if rltb x 0 then 0 else x) l.
  (** states.py:690-707, one matrix of the batch. *)
  Definition sqrt_rho (d : nat) (rho : mat) : mat :=
    let (rho_eigvals, rho_eigvecs) := eigh d rho in
    let sqrt_eigvals := map sqrt (clamp0 rho_eigvals) in
    mmul d rho_eigvecs (mmul d (diag sqrt_eigvals) (madj rho_eigvecs)).
  (** states.py:709-720, one matrix of the batch. *)
  Definition fidelity_row (d : nat) (rho sigma : mat) : R :=
    let inner_product := mmul d (sqrt_rho d rho) (mmul d sigma (sqrt_rho d rho)) in
    rsum (map sqrt (clamp0 (eigvalsh d inner_product))).
  (** states.py:673-720.  The loops run over the batch of [rho]; [None] is the IndexError for a shorter batch of [sigma]. *)
  Fixpoint fidelity (d : nat) (rho sigma : list mat) : option (list R) :=
    match rho, sigma with
    | [], _ => Some []
    | _ :: _, [] => None
    | r :: rho', s :: sigma' => option_map (cons (fidelity_row d r s)) (fidelity d rho' sigma')
    end.
End Linalg.

(** states.py:590-596 and :567-587, two batches of the same size: torch.allclose with every entry of the expected tensor equal to 1,
    that is |f - 1| <= atol + rtol * 1 for every overlap f. *)
Definition equivalent_state (s0 s1 : list (list C)) (rtol atol : R) : bool :=
  forallb (fun p => if Rle_dec (Rabs (overlap_exact (fst p) (snd p) - 1)) (atol + rtol * Rabs 1) then true else false) (combine s0 s1).
