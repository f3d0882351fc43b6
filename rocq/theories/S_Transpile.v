(** Specification vocabulary for block rewriting: shapes of trees. *)
From Coq Require Import String Reals List Arith Bool.
From Coquelicot Require Import Coquelicot.
From Coq Require Import List.
From Verif Require Import S_Ops M_Block S_Den.
Import ListNotations.

(** Every kron in the tree is non-empty and acts on pairwise distinct qubits (what a user can construct). *)
Fixpoint krons_ok (b : block) : Prop :=
  match b with
  | BChain bs | BAdd bs => fold_right (fun x k => krons_ok x /\ k) True bs
  | BKron bs => bs <> [] /\ ForallOrdPairs (fun x y => forall q, In q (qubits x) -> In q (qubits y) -> False) bs /\
                fold_right (fun x k => krons_ok x /\ k) True bs
  | BScale b' _ => krons_ok b'
  | _ => True
  end.

(** The gates of the tree from left to right, ignoring grouping and scale factors. *)
Fixpoint gates (b : block) : list block :=
  match b with
  | BChain bs | BKron bs | BAdd bs => flat_map gates bs
  | BScale b' _ => gates b'
  | _ => [b]
  end.

Definition is_chain (b : block) : Prop := match b with BChain _ => True | _ => False end.
Definition is_kron (b : block) : Prop := match b with BKron _ => True | _ => False end.
Definition is_add (b : block) : Prop := match b with BAdd _ => True | _ => False end.

(** No node satisfying [p] is a direct child of a composite node satisfying [p]. *)
Fixpoint no_nest (p : block -> Prop) (b : block) : Prop :=
  match b with
  | BChain bs | BKron bs | BAdd bs =>
      (p b -> Forall (fun x => ~ p x) bs) /\ fold_right (fun x k => no_nest p x /\ k) True bs
  | BScale b' _ => no_nest p b'
  | _ => True
  end.

Definition is_composite (b : block) : Prop := is_chain b \/ is_kron b \/ is_add b.
Definition is_scale (b : block) : Prop := match b with BScale _ _ => True | _ => False end.

(** Scale factors occur only directly around gates. *)
Fixpoint scales_at_gates (b : block) : Prop :=
  match b with
  | BChain bs | BKron bs | BAdd bs => fold_right (fun x k => scales_at_gates x /\ k) True bs
  | BScale b' _ => ~ is_composite b' /\ ~ is_scale b'
  | _ => True
  end.

(** No chain without blocks. *)
Fixpoint no_empty_chain (b : block) : Prop :=
  match b with
  | BChain bs => bs <> [] /\ fold_right (fun x k => no_empty_chain x /\ k) True bs
  | BKron bs | BAdd bs => fold_right (fun x k => no_empty_chain x /\ k) True bs
  | BScale b' _ => no_empty_chain b'
  | _ => True
  end.

(** No Hamiltonian evolution in the tree (including below controls). *)
Fixpoint no_evo (b : block) : Prop :=
  match b with
  | BChain bs | BKron bs | BAdd bs => fold_right (fun x k => no_evo x /\ k) True bs
  | BScale b' _ | BCtrl _ b' | BPCtrl _ b' => no_evo b'
  | BEvo _ _ => False
  | _ => True
  end.

(** As [krons_ok], also below controls. *)
Fixpoint krons_all (b : block) : Prop :=
  match b with
  | BChain bs | BAdd bs => fold_right (fun x k => krons_all x /\ k) True bs
  | BKron bs => bs <> [] /\ ForallOrdPairs (fun x y => forall q, In q (qubits x) -> In q (qubits y) -> False) bs /\
                fold_right (fun x k => krons_all x /\ k) True bs
  | BScale b' _ | BCtrl _ b' | BPCtrl _ b' => krons_all b'
  | _ => True
  end.

(** [B] does on the qubits [f q] what [A] does on the qubits [q] of [fs]. *)
Definition renamed (fs : list nat) (f : nat -> nat) (A B : Op) : Prop :=
  forall r c, length r = length fs -> length c = length fs -> matof (map f fs) B r c = matof fs A r c.

(** Running an operator on a state vector of n qubits (qubit 0 is the most significant bit of the index). *)
Definition run_vec (n : nat) (A : Op) (v : list C) : list C :=
  map (fun r => csum (fun c => Cmult (matof (seq 0 n) A r c) (nth (bits_to_nat c) v (RtoC 0))) (bits n)) (bits n).

(** No chain, kron or sum without blocks. *)
Fixpoint nonempty_composites (b : block) : Prop :=
  match b with
  | BChain bs | BKron bs | BAdd bs => bs <> [] /\ fold_right (fun x k => nonempty_composites x /\ k) True bs
  | _ => True
  end.

(** The qubits form an interval. *)
Definition interval (l : list nat) : Prop :=
  l <> [] /\ forall a c q, In a l -> In c l -> (a <= q <= c)%nat -> In q l.

(** Every block stacked in a kron acts on an interval of qubits. *)
Fixpoint kron_parts_intervals (b : block) : Prop :=
  match b with
  | BChain bs | BAdd bs => fold_right (fun x k => kron_parts_intervals x /\ k) True bs
  | BKron bs => Forall (fun x => interval (qubits x)) bs /\ fold_right (fun x k => kron_parts_intervals x /\ k) True bs
  | _ => True
  end.
