(** Model of the graphs of the registers in qadence/register.py: the edges and positions of [Register.line], [square], [circle] and
    [rectangular_lattice], [edge_distances], and the sharing of a graph between registers.  A graph is its node dictionary (M_Register.v) and its
    edges, the smaller node first.  networkx's grid_2d_graph (nodes in row-major order; a ring when periodic with more than two nodes and one
    column), relabel_nodes and set_node_attributes are written as what they do here; [circular_layout] is an argument, its contract is in
    P_Shapes.v.  The triangular and honeycomb lattices are in M_Cells.v; the spring layout of [all_to_all] is not modelled. *)
From Coq Require Import Reals List Arith Bool.
From Verif Require Import M_Register.
Import ListNotations.
Open Scope R_scope.

Record graph := Graph { g_nodes : register; g_edges : list (nat * nat) }.

(** register.py:298-306. *)
Definition edge_distances (g : graph) : list ((nat * nat) * R) := map (fun e => (e, pair_dist (g_nodes g) e)) (g_edges g).
(** register.py:66-76: the constructor scales the positions and keeps the edges. *)
Definition Register_graph (g : graph) (spacing : option R) : graph := Graph (Register_init (g_nodes g) spacing) (g_edges g).

(** register.py:357-363, 101-118: edges of a line. *)
Definition path_edges (n : nat) : list (nat * nat) := map (fun i => (i, S i)) (seq 0 (n - 1)).
Definition line_register (n_qubits : nat) (spacing : R) : graph := Register_graph (Graph (line_graph n_qubits) (path_edges n_qubits)) (Some spacing).

(** networkx's grid_2d_graph(n, 1, periodic=True) after relabelling (register.py:135-136, 179-180): a path, closed if it has more than two nodes. *)
Definition ring_edges (n : nat) : list (nat * nat) := path_edges n ++ (if Nat.ltb 2 n then [(0, n - 1)] else [])%nat.

(** register.py:168-172: the rest of the loop; [counter] and [increment] are updated after each point. *)
Definition rotate_left (v : point) : point := (- snd v, fst v).
Fixpoint walk (qubits_side steps : nat) (last increment : point) (counter : nat) : list point :=
  match steps with
  | O => []
  | S k =>
      let next := (fst last + fst increment, snd last + snd increment) in
      let counter := Nat.modulo (counter + 1) qubits_side in
      next :: (if Nat.eqb counter 0 then walk qubits_side k next (rotate_left increment) 1 else walk qubits_side k next increment counter)
  end.
(** register.py:158-177. *)
Definition rmean (l : list R) : R := fold_right Rplus 0 l / INR (length l).
Definition gen_points (qubits_side : nat) : list point :=
  let n_points := (4 * (qubits_side - 1))%nat in
  let points := (0, 0) :: walk qubits_side (n_points - 1) (0, 0) (0, 1) 1 in
  let mean := (rmean (map fst points), rmean (map snd points)) in
  map (fun p => (fst p - fst mean, snd p - snd mean)) points.
(** register.py:142-183; [qubits_side] at least one (networkx refuses a negative number of nodes). *)
Definition square (qubits_side : nat) (spacing : R) : graph :=
  let n_points := (4 * (qubits_side - 1))%nat in
  Register_graph (Graph (combine (seq 0 n_points) (gen_points qubits_side)) (ring_edges n_points)) (Some spacing).

(** register.py:120-140.  [circular_layout n i]: the position of node i of n. *)
Definition circle (circular_layout : nat -> nat -> point) (n_qubits : nat) (spacing : R) : graph :=
  Register_graph (Graph (map (fun i => (i, circular_layout n_qubits i)) (seq 0 n_qubits)) (ring_edges n_qubits)) (Some spacing).

(** register.py:203-217: node (i, j) becomes node i * qubits_row + j; neighbours in a column, then in a row. *)
Definition grid_edges (qubits_row qubits_col : nat) : list (nat * nat) :=
  map (fun ij => (fst ij * qubits_row + snd ij, S (fst ij) * qubits_row + snd ij))%nat (list_prod (seq 0 (qubits_col - 1)) (seq 0 qubits_row)) ++
  map (fun ij => (fst ij * qubits_row + snd ij, fst ij * qubits_row + S (snd ij)))%nat (list_prod (seq 0 qubits_col) (seq 0 (qubits_row - 1))).
Definition rectangular (qubits_row qubits_col : nat) (spacing : R) : graph :=
  Graph (rectangular_lattice qubits_row qubits_col spacing) (grid_edges qubits_row qubits_col).

(** * Objects: a register holds a reference to its graph *)
(** The graphs in memory and the next free address. *)
Record heap := Heap { cells : nat -> graph; next : nat }.
Definition store (h : heap) (a : nat) (g : graph) : heap := Heap (fun b => if Nat.eqb b a then g else cells h b) (next h).
(** Register(graph, spacing) (register.py:66-76): [self.graph = support] keeps the reference, and the scaling writes into that graph. *)
Definition Register_new (h : heap) (a : nat) (spacing : option R) : heap := store h a (Register_graph (cells h a) spacing).
(** register.py:315-324: a deep copy, at the next address, which is returned. *)
Definition rescale (h : heap) (a : nat) (scaling : R) : nat * heap :=
  let copy := Graph (scale_node_positions (g_nodes (cells h a)) 1 scaling) (g_edges (cells h a)) in
  (next h, Register_new (Heap (fun b => if Nat.eqb b (next h) then copy else cells h b) (S (next h))) (next h) None).
