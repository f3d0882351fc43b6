(** The operator denoted by a block: textbook definitions of the gates and of composition.
    This is the specification; it does not use the library's tensor code. *)
From Coq Require Import String Reals List Arith Bool.
From Coquelicot Require Import Coquelicot.
From Verif Require Import S_Ops M_Block.
Import ListNotations.
Open Scope R_scope.
Open Scope C_scope.

(** e^(i t) *)
Definition cis (t : R) : C := (cos t, sin t).

(** One-qubit matrices as functions of (row, column). *)
Definition mat2 (a b c d : C) : bool -> bool -> C :=
  fun r k => match r, k with
             | false, false => a | false, true => b
             | true, false => c | true, true => d end.

Definition prim_mat (p : prim) : bool -> bool -> C :=
  match p with
  | PX => mat2 0 1 1 0
  | PY => mat2 0 (- Ci) Ci 0
  | PZ => mat2 1 0 0 (- (1))
  | PI_ => mat2 1 0 0 1
  | PH => mat2 (/ sqrt 2) (/ sqrt 2) (/ sqrt 2) (- / sqrt 2)
  | PS => mat2 1 0 0 Ci
  | PSdg => mat2 1 0 0 (- Ci)
  | PT => mat2 1 0 0 (cis (PI / 4))
  | PTdg => mat2 1 0 0 (cis (- (PI / 4)))
  | PZero => mat2 0 0 0 0
  | PN true => mat2 0 0 0 1
  | PN false => mat2 1 0 0 0
  end.

Definition rot_mat (r : rot) (t : R) : bool -> bool -> C :=
  match r with
  | RX_ => mat2 (cos (t / 2)) (- Ci * sin (t / 2)) (- Ci * sin (t / 2)) (cos (t / 2))
  | RY_ => mat2 (cos (t / 2)) (- sin (t / 2)) (sin (t / 2)) (cos (t / 2))
  | RZ_ => mat2 (cis (- (t / 2))) 0 0 (cis (t / 2))
  | RPhase => mat2 1 0 0 (cis t)
  end.

(** Lift a one-qubit matrix to bit-string indices. *)
Definition of_mat2 (m : bool -> bool -> C) : bmat :=
  fun r c => match r, c with [a], [b] => m a b | _, _ => 0 end.
Definition gate1 (q : nat) (m : bool -> bool -> C) : Op := gate [q] (of_mat2 m).

(** |ket><bra| *)
Definition ketbra (kt br : list bool) : bmat :=
  fun r c => (if eqbits r kt then 1 else 0) * (if eqbits c br then 1 else 0).

(** A matrix with integer indices, read on bit strings (most significant bit first). *)
Definition nmat (m : nat -> nat -> C) : bmat := fun r c => m (bits_to_nat r) (bits_to_nat c).

(** Powers and exponential of a matrix on bit strings of length n. *)
Fixpoint bpow (n : nat) (A : bmat) (k : nat) : bmat :=
  match k with
  | O => fun r c => if eqbits r c then 1 else 0
  | S j => fun r c => csum (fun z => A r z * bpow n A j z c) (bits n)
  end.
Definition bexp (n : nat) (A : bmat) : bmat := fun r c =>
  (Series (fun k => fst (bpow n A k r c) / INR (fact k))%R,
   Series (fun k => snd (bpow n A k r c) / INR (fact k))%R).

(** The qubits of the leaves of a block, without repetition (in order of first appearance from the right). *)
Fixpoint qubits (b : block) : list nat :=
  match b with
  | BPrim _ q | BRot _ q _ | BU q _ _ _ => [q]
  | BProj _ _ qs | BMat _ qs => qs
  | BSwap a b => [a; b]
  | BCSwap c a b => [c; a; b]
  | BCtrl cs b | BPCtrl cs b => cs ++ qubits b
  | BScale b _ => qubits b
  | BChain bs | BKron bs | BAdd bs => flat_map qubits bs
  | BEvo g _ => qubits g
  end.
Definition uqubits (b : block) : list nat := nodup Nat.eq_dec (qubits b).

Fixpoint den (rho : env) (b : block) : Op :=
  match b with
  | BPrim p q => gate1 q (prim_mat p)
  | BProj kt br qs => gate qs (ketbra kt br)
  | BRot r q e => gate1 q (rot_mat r (ang rho e))
  | BU q phi theta omega =>
      seqop (gate1 q (rot_mat RZ_ (ang rho phi)))
        (seqop (gate1 q (rot_mat RY_ (ang rho theta))) (gate1 q (rot_mat RZ_ (ang rho omega))))
  | BSwap a b => swapop a b
  | BCSwap c a b => ctrlop [c] (swapop a b)
  | BCtrl cs b | BPCtrl cs b => ctrlop cs (den rho b)
  | BScale b e => scaleop (ev rho e) (den rho b)
  | BChain bs | BKron bs => fold_right (fun b k => seqop (den rho b) k) idop bs
  | BAdd bs => fold_right (fun b k => addop (den rho b) k) zeroop bs
  | BMat m qs => gate qs (nmat m)
  | BEvo g t =>
      let fs := uqubits g in
      gate fs (bexp (length fs) (fun r c => - Ci * ang rho t * matof fs (den rho g) r c))
  end.
