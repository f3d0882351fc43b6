(** Model of qadence/register.py.  A register is the node dictionary of its graph: nodes (integers) with their 2D positions, in
    insertion order.  Edges and device specifications are not modelled here. *)
From Coq Require Import Reals List Arith Bool.
Import ListNotations.
Open Scope R_scope.

Definition point := (R * R)%type.
Definition register := list (nat * point).

(** register.py:277-280. *)
Definition support (r : register) : list nat := map fst r.
(** register.py:282-285. *)
Definition coord (r : register) (i : nat) : option point :=
  match find (fun e => Nat.eqb (fst e) i) r with Some e => Some (snd e) | None => None end.

(** math.dist in two dimensions. *)
Definition dist (a b : point) : R := sqrt ((fst a - fst b) ^ 2 + (snd a - snd b) ^ 2).

(** register.py:288-290: pairs from the Cartesian product of the node set with itself, the smaller node first.  The set is
    iterated in insertion order here; the theorems do not depend on it. *)
Definition all_node_pairs (r : register) : list (nat * nat) :=
  filter (fun x => Nat.ltb (fst x) (snd x)) (list_prod (support r) (support r)).
(** register.py:293-296. *)
Definition pair_dist (r : register) (e : nat * nat) : R :=
  match coord r (fst e), coord r (snd e) with Some a, Some b => dist a b | _, _ => 0 end.
Definition distances (r : register) : list ((nat * nat) * R) := map (fun e => (e, pair_dist r e)) (all_node_pairs r).
(** register.py:309-313. *)
Fixpoint rmin (x : R) (l : list R) : R := match l with [] => x | y :: t => Rmin x (rmin y t) end.
Definition min_distance (r : register) : R :=
  match map snd (distances r) with [] => 0 | x :: t => rmin x t end.

(** register.py:24-30. *)
Definition scale_node_positions (r : register) (min_dist spacing : R) : register :=
  let scale_factor := spacing / min_dist in
  map (fun e => (fst e, (fst (snd e) * scale_factor, snd (snd e) * scale_factor))) r.
(** register.py:66-76: the constructor, from a graph with positions. *)
Definition Register_init (graph : register) (spacing : option R) : register :=
  match spacing with
  | Some s => if Req_EM_T (min_distance graph) 0 then graph else scale_node_positions graph (min_distance graph) s
  | None => graph
  end.
(** register.py:315-324. *)
Definition rescale_coords (r : register) (scaling : R) : register :=
  Register_init (scale_node_positions r 1 scaling) None.
(** register.py:326-345: the dictionary holds the graph; the constructor is called with its default spacing 1. *)
Definition to_dict (r : register) : register := r.
Definition from_dict (d : register) : register := Register_init d (Some 1).

(** register.py:92-99: coordinates numbered from zero. *)
Fixpoint enumerate {A} (k : nat) (l : list A) : list (nat * A) := match l with [] => [] | x :: t => (k, x) :: enumerate (S k) t end.
Definition from_coordinates (coords : list point) (spacing : option R) : register := Register_init (enumerate 0 coords) spacing.
(** register.py:357-363 and 101-118. *)
Definition line_graph (n_qubits : nat) : register := map (fun i => (i, (INR i, 0))) (seq 0 n_qubits).
Definition line (n_qubits : nat) (spacing : R) : register := Register_init (line_graph n_qubits) (Some spacing).
(** register.py:197-209: networkx's grid_2d_graph lists (i, j) with i over the columns and j over the rows. *)
Definition rectangular_lattice (qubits_row qubits_col : nat) (spacing : R) : register :=
  Register_init (enumerate 0 (map (fun ij => (INR (fst ij), INR (snd ij))) (list_prod (seq 0 qubits_col) (seq 0 qubits_row)))) (Some spacing).
