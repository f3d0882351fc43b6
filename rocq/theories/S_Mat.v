(** Complex matrices of dimension [d] (only the entries with indices below [d] count): products, adjoints, traces, positive
    semidefinite matrices, spectral decompositions.  Nothing in this file refers to the library code. *)
From Coq Require Import Reals List Arith.
From Coquelicot Require Import Coquelicot.
From Coq Require Import List.
From Verif Require Import S_Ops.
Import ListNotations.
Open Scope R_scope.
Open Scope C_scope.

Definition mat := nat -> nat -> C.

Section Mat.
  Variable d : nat.
  Definition meq (A B : mat) : Prop := forall i j, (i < d)%nat -> (j < d)%nat -> A i j = B i j.
  Definition mmul (A B : mat) : mat := fun i j => csum (fun k => A i k * B k j) (seq 0 d).
  Definition mid : mat := fun i j => if Nat.eqb i j then 1 else 0.
  Definition madj (A : mat) : mat := fun i j => Cconj (A j i).
  Definition mscale (c : C) (A : mat) : mat := fun i j => c * A i j.
  Definition diag (l : list R) : mat := fun i j => if Nat.eqb i j then RtoC (nth i l 0%R) else 0.
  Definition trace (A : mat) : C := csum (fun i => A i i) (seq 0 d).
  Fixpoint mpow (A : mat) (n : nat) : mat := match n with O => mid | S k => mmul A (mpow A k) end.

  (** Vectors, <u|v>, A v, <v|A|v> and |u><v|. *)
  Definition vdot (u v : nat -> C) : C := csum (fun i => Cconj (u i) * v i) (seq 0 d).
  Definition mv (A : mat) (v : nat -> C) : nat -> C := fun i => csum (fun j => A i j * v j) (seq 0 d).
  Definition qform (A : mat) (v : nat -> C) : C := vdot v (mv A v).
  Definition outer (u v : nat -> C) : mat := fun i j => u i * Cconj (v j).

  Definition hermitian (A : mat) : Prop := meq (madj A) A.
  Definition psd (A : mat) : Prop := hermitian A /\ forall v, (0 <= fst (qform A v))%R.
  (** A density matrix. *)
  Definition density (A : mat) : Prop := psd A /\ trace A = 1.
  Definition unitary (U : mat) : Prop := meq (mmul (madj U) U) mid /\ meq (mmul U (madj U)) mid.
  (** The columns of [U] are orthonormal eigenvectors of [A] with the eigenvalues [l]. *)
  Definition decomposes (A : mat) (l : list R) (U : mat) : Prop :=
    length l = d /\ unitary U /\ meq A (mmul U (mmul (diag l) (madj U))).
End Mat.
