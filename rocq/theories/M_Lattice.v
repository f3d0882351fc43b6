(** Model of [Register.square] (qadence/register.py:140-176): the points of its loop and the register made from them.
    The points are integers until their mean is subtracted; edges and devices are not modelled, as in M_Register. *)
From Coq Require Import Reals ZArith List Arith Bool.
From Verif Require Import M_Register.
Import ListNotations.
Open Scope nat_scope.

(** register.py:157, 167: the matrix [[0, -1], [1, 0]] applied to a vector. *)
Definition rotate_left (v : Z * Z) : Z * Z := (- snd v, fst v)%Z.
(** register.py:160-168: the loop, by the number of points still missing; what it appends. *)
Fixpoint walk (missing qubits_side : nat) (point increment : Z * Z) (counter : nat) : list (Z * Z) :=
  match missing with
  | O => []
  | S missing =>
      let point := (fst point + fst increment, snd point + snd increment)%Z in
      let counter := (counter + 1) mod qubits_side in
      point :: (if Nat.eqb counter 0 then walk missing qubits_side point (rotate_left increment) 1 else walk missing qubits_side point increment counter)
  end.
(** register.py:153. *)
Definition n_points (qubits_side : nat) : nat := 4 * (qubits_side - 1).
(** register.py:155-168: the points before they are centred. *)
Definition square_points (qubits_side : nat) : list (Z * Z) := (0, 0)%Z :: walk (n_points qubits_side - 1) qubits_side (0, 0)%Z (0, 1)%Z 1.
(** register.py:169-170: the mean of every coordinate subtracted. *)
Definition mean (l : list R) : R := (fold_right Rplus 0 l / INR (length l))%R.
Definition centred (points : list (Z * Z)) : list point :=
  let mx := mean (map (fun p => IZR (fst p)) points) in let my := mean (map (fun p => IZR (snd p)) points) in
  map (fun p => (IZR (fst p) - mx, IZR (snd p) - my)%R) points.
(** register.py:172-176: the nodes 0, 1, ... with the points in turn. *)
Definition square_graph (qubits_side : nat) : register := combine (seq 0 (n_points qubits_side)) (centred (square_points qubits_side)).
Definition square (qubits_side : nat) (spacing : R) : register := Register_init (square_graph qubits_side) (Some spacing).
