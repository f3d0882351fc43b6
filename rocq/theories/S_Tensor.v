(** Tensors with row-major storage, and what the native pyqtorch calls used by the backend return.
    Nothing in this file refers to the library code. *)
From Coq Require Import String Reals List Arith Bool.
From Coquelicot Require Import Coquelicot.
From Coq Require Import List.
From Verif Require Import S_Ops S_PSR S_State M_Block M_Tensor M_Transpile.
Import ListNotations.
Open Scope nat_scope.

(** A tensor: its shape and its entries. *)
Record tensor := Tn { shape : list nat; at_ : list nat -> C }.
Definition volume (s : list nat) : nat := fold_right Nat.mul 1 s.
(** Position in row-major order, and back. *)
Fixpoint ravel (s i : list nat) : nat :=
  match s, i with
  | _ :: s', x :: i' => x * volume s' + ravel s' i'
  | _, _ => 0
  end.
Fixpoint unravel (s : list nat) (k : nat) : list nat :=
  match s with
  | [] => []
  | _ :: s' => k / volume s' :: unravel s' (k mod volume s')
  end.
(** torch.reshape; an error when the number of entries differs *)
Definition reshape (t : tensor) (s : list nat) : option tensor :=
  if Nat.eqb (volume (shape t)) (volume s) then Some (Tn s (fun i => at_ t (unravel (shape t) (ravel s i)))) else None.
(** .T / .t() of a matrix *)
Definition transpose (t : tensor) : option tensor :=
  match shape t with
  | [a; b] => Some (Tn [b; a] (fun i => match i with [x; y] => at_ t [y; x] | _ => RtoC 0 end))
  | _ => None
  end.

(** Parameter values: the lengths of the tensors in the dictionary ([None]: a tensor without dimensions) and the values used in
    each row of the batch. *)
Record vals := Vals { lens : list (option nat); vrow : nat -> env }.
Definition sizes (v : vals) : list nat := map (fun o => match o with Some l => l | None => 1 end) (lens v).
Definition vbatch (v : vals) : option nat :=
  let m := fold_right Nat.max 1 (sizes v) in
  if forallb (fun l => Nat.eqb l 1 || Nat.eqb l m) (sizes v) then Some m else None.
(** Broadcasting of two batch sizes; the row of a batch used for row k of the result. *)
Definition broadcast (a b : nat) : option nat :=
  if Nat.eqb a b then Some a else if Nat.eqb a 1 then Some b else if Nat.eqb b 1 then Some a else None.
Definition pick (size k : nat) : nat := if Nat.eqb size 1 then 0 else k.

Definition n2b (k : nat) : bool := negb (Nat.eqb k 0).
(** The k-th state of a tensor of shape [2; ...; 2; batch]. *)
Definition state_of (n : nat) (p : tensor) (k : nat) : St := fun x => at_ p (map b2n (map x (seq 0 n)) ++ [k]).

(** pyqtorch: QuantumCircuit.run applies the operator (which depends on the parameter values) to every state of the batch. *)
Definition native_run (n : nat) (op : env -> option Op) (v : vals) (p : tensor) : option tensor :=
  obind (vbatch v) (fun bv =>
  obind (broadcast (last (shape p) 0) bv) (fun b =>
  omap (fun finals => Tn (repeat 2 n ++ [b]) (fun i => amps n (nth (last i 0) finals (fun _ => RtoC 0)) (map n2b (removelast i))))
    (osequence (map (fun k => omap (fun A : Op => A (state_of n p (pick (last (shape p) 0) k))) (op (vrow v k))) (seq 0 b))))).
(** pyqtorch: QuantumCircuit.init_state *)
Definition init_state (n b : nat) : tensor :=
  Tn (repeat 2 n ++ [b]) (fun i => if forallb (Nat.eqb 0) (removelast i) then RtoC 1 else RtoC 0).
(** pyqtorch: Observable.expectation, the real part of <psi|O|psi> for every state of the batch. *)
Definition native_expectation (n : nat) (op : env -> option Op) (v : vals) (p : tensor) : option (list R) :=
  obind (vbatch v) (fun bv =>
  obind (broadcast (last (shape p) 0) bv) (fun b =>
  osequence (map (fun k => omap (fun A : Op => fst (expval n (state_of n p (pick (last (shape p) 0) k)) A)) (op (vrow v k))) (seq 0 b)))).
(** pyqtorch: QuantumCircuit.sample, one counter per row, drawn by [draw] from the Born probabilities of the final state. *)
Definition native_sample (draw : nat -> (list bool -> R) -> list (list bool * nat)) (n : nat) (op : env -> option Op) (v : vals) (p : tensor)
  : option (list (list (list bool * nat))) :=
  obind (vbatch v) (fun bv =>
  obind (broadcast (last (shape p) 0) bv) (fun b =>
  osequence (map (fun k => omap (fun A : Op => draw k (prob n (A (state_of n p (pick (last (shape p) 0) k))))) (op (vrow v k))) (seq 0 b)))).
