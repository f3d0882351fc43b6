(** Specification of gradients of expectation values with respect to gate parameters.  Nothing here refers to the
    code of the parameter-shift rules. *)
From Coq Require Import String Reals List Arith Bool.
From Coquelicot Require Import Coquelicot.
From Coq Require Import List.
From Verif Require Import S_Ops M_Block S_Den L_Adj S_PSR L_Den.
Import ListNotations.
Open Scope R_scope.

(** The parameters that occur in an expression and in a block, with repetitions. *)
Fixpoint evars (e : expr) : list string :=
  match e with
  | ECst _ => []
  | EVar u => [u]
  | ENeg a | EPow a _ | EConj a | EFun _ a => evars a
  | EAdd a b | EMul a b => evars a ++ evars b
  end.
Fixpoint occ (b : block) : list string :=
  match b with
  | BPrim _ _ | BProj _ _ _ | BSwap _ _ | BCSwap _ _ _ | BMat _ _ => []
  | BRot _ _ e => evars e
  | BU _ e1 e2 e3 => evars e1 ++ evars e2 ++ evars e3
  | BCtrl _ b | BPCtrl _ b => occ b
  | BScale b e => evars e ++ occ b
  | BChain bs | BKron bs | BAdd bs => flat_map occ bs
  | BEvo g t => occ g ++ evars t
  end.

(** The expectation value of the observable [obs] after the circuit [b] on [n] qubits started in [psi]. *)
Definition expval (n : nat) (psi : St) (b obs : block) (rho : env) : R :=
  fst (quad n (matof (seq 0 n) (den rho obs)) (amps n (den rho b psi))).

(** [A] is diagonalisable with eigenvalues among [l]: the identity is a sum of operators [V] on the same qubits
    with [A V = x V] for an [x] in [l]. *)
Definition diagonalises (fs : list nat) (l : list R) (A : Op) : Prop :=
  exists comps : list (R * Op),
    (forall p, In p comps -> In (fst p) l /\ loc (inl fs) (snd p) /\ seqop (snd p) A = scaleop (RtoC (fst p)) (snd p)) /\
    fold_right (fun p k => addop (snd p) k) zeroop comps = idop.

(** [G] is the partial derivative of [F] in [u] at all dictionaries that satisfy [ok]. *)
Definition partial_derivative (ok : env -> Prop) (u : string) (F G : env -> R) : Prop :=
  forall rho, ok rho -> is_derive (fun t => F (with_param rho u t)) (rho u) (G rho).
