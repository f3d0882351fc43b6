(** Model of [Register.triangular_lattice], [Register.honeycomb_lattice] (qadence/register.py:218-256) with [triangular_lattice_graph] (371-374)
    and of [alltoall_graph] for two and three qubits (377-381).

    networkx's [triangular_lattice_graph(m, n)], [hexagonal_lattice_graph(m, n)] and [relabel_nodes] are external; their generators of nodes,
    edges and positions (networkx/generators/lattice.py, neither periodic) are written out.  A graph is that of M_Shapes.v, its
    edges with the smaller node first. *)
From Coq Require Import Reals List Arith Bool.
From Verif Require Import M_Register M_Shapes.
Import ListNotations.
Open Scope R_scope.

Definition cell := (nat * nat)%type.
Definition ceqb (a b : cell) : bool := Nat.eqb (fst a) (fst b) && Nat.eqb (snd a) (snd b).
Fixpoint index (a : cell) (l : list cell) : nat := match l with [] => 0%nat | b :: r => if ceqb a b then 0%nat else S (index a r) end.
(** networkx's [remove_node]: edges at the node are removed below *)
Definition remove_node (x : cell) (l : list cell) : list cell := filter (fun c => negb (ceqb c x)) l.
(** register.py:253-254, 373 [nx.relabel_nodes(graph, {(i, j): k for k, (i, j) in enumerate(graph.nodes)})] *)
Definition relabel (nodes : list cell) (e : cell * cell) : nat * nat :=
  (Nat.min (index (fst e) nodes) (index (snd e) nodes), Nat.max (index (fst e) nodes) (index (snd e) nodes)).
Definition lattice_graph (nodes : list cell) (edges : list (cell * cell)) (pos : cell -> point) : graph :=
  Graph (enumerate 0 (map pos nodes))
        (map (relabel nodes) (filter (fun e => existsb (ceqb (fst e)) nodes && existsb (ceqb (snd e)) nodes) edges)).

(** networkx's triangular lattice: [m] rows of [n] triangles *)
Definition tri_nodes (m n : nat) : list cell :=
  if (Nat.eqb m 0 || Nat.eqb n 0)%bool then [] else
  let N := Nat.div (n + 1) 2 in
  filter (fun c => negb (Nat.odd n && Nat.eqb (fst c) N && Nat.odd (snd c)))
    (map (fun ji => (snd ji, fst ji)) (list_prod (seq 0 (m + 1)) (seq 0 (N + 1)))).
Definition tri_edges (m n : nat) : list (cell * cell) :=
  let N := Nat.div (n + 1) 2 in
  map (fun ji => ((snd ji, fst ji), (S (snd ji), fst ji))) (list_prod (seq 0 (m + 1)) (seq 0 N)) ++
  map (fun ji => ((snd ji, fst ji), (snd ji, S (fst ji)))) (list_prod (seq 0 m) (seq 0 (N + 1))) ++
  map (fun ji => ((snd ji, fst ji), (S (snd ji), S (fst ji)))) (list_prod (filter Nat.odd (seq 0 m)) (seq 0 N)) ++
  map (fun ji => ((S (snd ji), fst ji), (snd ji, S (fst ji)))) (list_prod (filter Nat.even (seq 0 m)) (seq 0 N)).
Definition tri_pos (c : cell) : point := (/ 2 * INR (Nat.modulo (snd c) 2) + INR (fst c), sqrt 3 / 2 * INR (snd c)).
(** register.py:371-374 *)
Definition triangular_lattice_graph (n_cells_row n_cells_col : nat) : graph :=
  lattice_graph (tri_nodes n_cells_row n_cells_col) (tri_edges n_cells_row n_cells_col) tri_pos.
(** register.py:218-235 *)
Definition triangular_lattice (n_cells_row n_cells_col : nat) (spacing : R) : graph :=
  Register_graph (triangular_lattice_graph n_cells_row n_cells_col) (Some spacing).

(** networkx's hexagonal lattice: [m] rows of [n] hexagons *)
Definition hex_nodes (m n : nat) : list cell :=
  if (Nat.eqb m 0 || Nat.eqb n 0)%bool then [] else
  remove_node (n, (2 * m + 1) * Nat.modulo n 2)%nat (remove_node (0, 2 * m + 1)%nat (list_prod (seq 0 (n + 1)) (seq 0 (2 * m + 2)))).
Definition hex_edges (m n : nat) : list (cell * cell) :=
  map (fun ij => ((fst ij, snd ij), (fst ij, S (snd ij)))) (list_prod (seq 0 (n + 1)) (seq 0 (2 * m + 1))) ++
  map (fun ij => ((fst ij, snd ij), (S (fst ij), snd ij)))
    (filter (fun ij => Nat.eqb (Nat.modulo (fst ij) 2) (Nat.modulo (snd ij) 2)) (list_prod (seq 0 n) (seq 0 (2 * m + 2)))).
Definition hex_pos (c : cell) : point :=
  (/ 2 + INR (fst c) + INR (Nat.div (fst c) 2) + INR (Nat.modulo (snd c) 2) * (INR (Nat.modulo (fst c) 2) - / 2), sqrt 3 / 2 * INR (snd c)).
(** register.py:237-256 *)
Definition honeycomb_lattice (n_cells_row n_cells_col : nat) (spacing : R) : graph :=
  Register_graph (lattice_graph (hex_nodes n_cells_row n_cells_col) (hex_edges n_cells_row n_cells_col) hex_pos) (Some spacing).

(** register.py:377-381 with 66-76: [Register(n, spacing)] for two and three qubits *)
Definition small_all_to_all (n : nat) (spacing : R) : option graph :=
  match n with
  | 2%nat => Some (Register_graph (Graph (line_graph 2) (path_edges 2)) (Some spacing))
  | 3%nat => Some (Register_graph (triangular_lattice_graph 1 1) (Some spacing))
  | _ => None
  end.
