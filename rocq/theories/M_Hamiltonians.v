(** Model of qadence/constructors/hamiltonians.py and of [create_observable] in qadence/ml_tools/constructors.py. *)
From Coq Require Import String Reals List Arith Bool.
From Coquelicot Require Import Coquelicot.
From Coq Require Import List.
From Verif Require Import S_Ops M_QubitSupport M_Block M_BlockOps M_Tensor M_Transpile M_Names.
Import ListNotations.
Open Scope R_scope.
Open Scope nat_scope.

(** register.py:273-280: the nodes and the edges of the register's graph, in the order networkx reports them.  Positions play
    no role here. *)
Record hreg := HReg { hnodes : list nat; hedges : list (nat * nat) }.
(** register.py:293-295. *)
Definition hpairs (r : hreg) : list (nat * nat) :=
  filter (fun x => Nat.ltb (fst x) (snd x)) (list_prod (hnodes r) (hnodes r)).
(** register.py:73 and 377-384: a register made from a number of qubits.  For 2 qubits the graph is a line, for 3 qubits the
    one-cell triangular lattice, otherwise networkx's complete graph; in all cases every pair of qubits is an edge.
    Simplification: the order in which networkx lists the edges of the triangle is taken to be the lexicographic one. *)
Definition alltoall (n : nat) : hreg :=
  HReg (seq 0 n) (filter (fun x => Nat.ltb (fst x) (snd x)) (list_prod (seq 0 n) (seq 0 n))).

(** The values of [interaction]: the enumeration [Interaction] of types.py:288-301 that INTERACTION_DICT covers, or a callable.
    A callable is a function on two indices that may raise. *)
Inductive interaction := IZZ | INN | IXY | IXYZ | ICustom (f : nat -> nat -> option block).
(** The accepted strengths: None, an array of numbers or expressions, a prefix. *)
Inductive strength := SNone | SArray (l : list expr) | SPrefix (p : string).

Section H.
  Variable set_iter : list nat -> list nat.
  (** blocks/utils.py:342-347 [block_is_qubit_hamiltonian]. *)
  Variable is_hamiltonian : block -> bool.

  (** hamiltonians.py:20-38. *)
  Definition two (p : prim) (i j : nat) : option block := op_matmul set_iter (BPrim p i) (BPrim p j).
  Definition interaction_zz (i j : nat) : option block := two PZ i j.
  Definition interaction_nn (i j : nat) : option block := two (PN true) i j.
  Definition interaction_xy (i j : nat) : option block :=
    obind (two PX i j) (fun x => obind (two PY i j) (fun y => Some (op_add x y))).
  Definition interaction_xyz (i j : nat) : option block :=
    obind (two PX i j) (fun x => obind (two PY i j) (fun y => obind (two PZ i j) (fun z => Some (op_add (op_add x y) z)))).

  (** hamiltonians.py:41-46, 124-138: the interaction function; a callable is tried on (0, 1) first. *)
  Definition int_fn (k : interaction) : option (nat -> nat -> option block) :=
    match k with
    | IZZ => Some interaction_zz | INN => Some interaction_nn | IXY => Some interaction_xy | IXYZ => Some interaction_xyz
    | ICustom f => match f 0 1 with Some b => if is_hamiltonian b then Some f else None | None => None end
    end.

  (** hamiltonians.py:51: DETUNINGS. *)
  Definition is_detuning (p : prim) : bool := match p with PN true | PX | PY | PZ => true | _ => false end.

  (** hamiltonians.py:169-206.  [random] holds the numbers drawn by torch.rand when [random_strength] is set; [name] is the
      suffix given to an entry when the strength is a prefix. *)
  Definition preprocess_strengths {A} (data : list A) (name : A -> string) (s : strength) (random : option (nat -> R)) : option (list expr) :=
    match s with
    | SNone => Some (match random with
                     | Some u => map (fun k => ECst (RtoC (2 * u k - 1)%R)) (seq 0 (length data))
                     | None => map (fun _ => ECst (RtoC 1)) (seq 0 (length data)) end)
    | SArray l => if Nat.eqb (length l) (length data) then Some l else None
    | SPrefix p => Some (map (fun x => EVar (p ++ "_" ++ name x)) data)
    end.
  Definition edge_name (e : nat * nat) : string := (dec (fst e) ++ dec (snd e))%string.

  (** hamiltonians.py:55-166. *)
  Definition hamiltonian_factory (r : hreg) (inter : option interaction) (detuning : option prim)
      (s_int s_det : strength) (random : option ((nat -> R) * (nat -> R))) (use_all_node_pairs : bool) : option block :=
    match inter, detuning with
    | None, None => None
    | _, _ =>
        obind (match inter with None => Some None | Some k => option_map Some (int_fn k) end) (fun fn =>
        if match detuning with Some d => is_detuning d | None => true end then
          obind (preprocess_strengths (hnodes r) dec s_det (option_map fst random)) (fun ws_det =>
          let edge_data := if use_all_node_pairs then hpairs r else hedges r in
          obind (preprocess_strengths edge_data edge_name s_int (option_map snd random)) (fun ws_int =>
          let single := match detuning with
                        | Some d => map (fun wn => op_scale (BPrim d (snd wn)) (fst wn)) (combine ws_det (hnodes r))
                        | None => [] end in
          obind (match fn with
                 | Some f => osequence (map (fun we => option_map (fun b => op_scale b (fst we)) (f (fst (snd we)) (snd (snd we)))) (combine ws_int edge_data))
                 | None => Some [] end) (fun pairs =>
          Some (BAdd (single ++ pairs)))))
        else None)
    end.

  (** hamiltonians.py:209-210. *)
  Definition total_magnetization (n : nat) (z_terms : option (list expr)) : option block :=
    hamiltonian_factory (alltoall n) None (Some PZ) SNone (match z_terms with Some l => SArray l | None => SNone end) None false.
  (** hamiltonians.py:213-223.  The matrix of coefficients is a function of two indices; an index outside it raises, which is not
      modelled (take a matrix with at least [n] rows and columns). *)
  Definition zz_hamiltonian (n : nat) (z_terms : option (list expr)) (zz_terms : option (nat -> nat -> expr)) : option block :=
    hamiltonian_factory (alltoall n) (Some IZZ) (Some PZ)
      (match zz_terms with Some m => SArray (map (fun e => m (fst e) (snd e)) (hedges (alltoall n))) | None => SNone end)
      (match z_terms with Some l => SArray l | None => SNone end) None false.
  (** hamiltonians.py:226-234. *)
  Definition ising_hamiltonian (n : nat) (x_terms z_terms : option (list expr)) (zz_terms : option (nat -> nat -> expr)) : option block :=
    obind (zz_hamiltonian n z_terms zz_terms) (fun zz =>
    obind (hamiltonian_factory (alltoall n) None (Some PX) SNone (match x_terms with Some l => SArray l | None => SNone end) None false) (fun x =>
    Some (op_add zz x))).

  (** ml_tools/constructors.py:710-714. *)
  Definition global_identity (n : nat) : option block := mk_kron set_iter (map (BPrim PI_) (seq 0 n)).
  (** ml_tools/constructors.py:717-742 for an integer register; the tag is not modelled.  [scale] and [shift] are the parameters
      that ObservableConfig.__post_init__ (hamiltonians.py:288-309) makes from the configured values. *)
  Definition create_observable (n : nat) (inter : option interaction) (detuning : option prim) (scale shift : expr) : option block :=
    obind (global_identity n) (fun id =>
    obind (hamiltonian_factory (alltoall n) inter detuning SNone SNone None false) (fun h =>
    Some (BAdd [op_scale id shift; op_scale h scale]))).

  (** hamiltonians.py:347-355: the interaction of [ising_hamiltonian_config]. *)
  Definition ZZ_Z_hamiltonian (i j : nat) : option block :=
    obind (two PZ i j) (fun result =>
    Some (if Nat.eqb i 0 then op_iadd result (BPrim PZ j)
          else if Nat.eqb i 1 && Nat.eqb j 2 then op_iadd result (BPrim PZ 0)
          else result)).
  (** hamiltonians.py:312-363: the three predefined configurations, given to [create_observable]. *)
  Definition total_magnetization_config (n : nat) (scale shift : expr) := create_observable n None (Some PZ) scale shift.
  Definition zz_hamiltonian_config (n : nat) (scale shift : expr) := create_observable n (Some IZZ) (Some PZ) scale shift.
  Definition ising_hamiltonian_config (n : nat) (scale shift : expr) := create_observable n (Some (ICustom ZZ_Z_hamiltonian)) (Some PX) scale shift.
End H.
