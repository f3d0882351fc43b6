(** What a block with local qubit numbers means: [put v on s] applies the matrix of [v] on its qubits
    0, 1, ... to the qubits s[0], s[1], ...; the target of a control is placed from its smallest qubit on. *)
From Coq Require Import String Reals List Arith Bool.
From Coquelicot Require Import Coquelicot.
From Coq Require Import List.
From Verif Require Import S_Ops M_Block S_Den M_Transpile M_Fill M_Validate S_Transpile.
Import ListNotations.

Definition place (s : list nat) (A : Op) : Op := gate s (matof (seq 0 (length s)) A).
(** smallest .. largest *)
Definition hull (tgt : list nat) : list nat :=
  match tgt with [] => [] | q :: r => let lo := fold_left Nat.min r q in let hi := fold_left Nat.max r q in seq lo (S hi - lo) end.

Fixpoint vden (rho : env) (v : vblock) : Op :=
  match v with
  | VLeaf b => den rho b
  | VPut w s => place s (vden rho w)
  | VComp KAdd vs => fold_right (fun w k => addop (vden rho w) k) zeroop vs
  | VComp _ vs => fold_right (fun w k => seqop (vden rho w) k) idop vs
  | VCtrl cs tgt w => ctrlop cs (place (hull tgt) (vden rho w))
  end.

(** No composite without blocks, also below controls, and no gate without qubits. *)
Fixpoint nonempty_all (b : block) : Prop :=
  match b with
  | BChain bs | BKron bs | BAdd bs => bs <> [] /\ fold_right (fun x k => nonempty_all x /\ k) True bs
  | BCtrl _ b' | BPCtrl _ b' | BScale b' _ => nonempty_all b'
  | BProj _ _ qs | BMat _ qs => qs <> []
  | _ => True
  end.
