(** Model of what functions on circuits do with the register: circuit.py:35-53 and 117-119 (constructor and [dagger]), transpile/circuit.py,
    transpile/transpile.py, transpile/flatten.py:105-108, transpile/digitalize.py:42-44, measurements/utils.py:103-121 [rotate],
    measurements/shadow.py:141-160.

    The blocks are those of M_Rydberg.v, with digital and analog parts.  [None]: an exception.  Simplifications: the constructor's check of
    the number of qubits is not modelled (the functions here use no other qubits than the block had, or those of the register); [kron] does
    not look at the supports again when krons are flattened; edges of registers are not modelled. *)
From Coq Require Import String Reals List Arith Bool.
From Coquelicot Require Import Coquelicot.
From Coq Require Import List.
From Verif Require M_Register M_Digitalize M_Decompose.
From Verif Require Import S_Ops M_QubitSupport M_Block M_BlockOps M_Tensor M_Transpile M_Fill M_Rydberg.
Import ListNotations.
Open Scope R_scope.

(** circuit.py:29-30; of the register: the sites, and [device_specs] *)
Record circuit := Circuit { c_reg : M_Register.register; c_dev : option device; c_block : tree }.
(** analog/device.py:26-43 and register.py:20: the device of a register when none is given *)
Definition default_device : device := Device NN 60 3700 None.

(** the composite digital block of a kind *)
Definition tcomp (k : kind) (bs : list tree) : tree := match k with KChain => TChain bs | KKron => TKron bs | KAdd => TAdd bs end.
(** [isinstance(block, T)]; the analog compositions are no CompositeBlocks (blocks/analog.py:213). *)
Definition tkind (t : tree) : option kind :=
  match t with TChain _ => Some KChain | TKron _ => Some KKron | TAdd _ => Some KAdd | _ => None end.
Definition has_kind (T : kind) (t : tree) : bool := match tkind t with Some k => kind_eqb k T | None => false end.

(** transpile/transpile.py:81: the functions are applied from the last to the first *)
Definition transpile {A} (fs : list (A -> option A)) (x : A) : option A :=
  fold_left (fun acc f => obind acc f) (rev fs) (Some x).
(** transpile/transpile.py:84-87 *)
Definition blockfn_to_circfn (fn : tree -> option tree) (c : circuit) : option circuit :=
  omap (fun t => Circuit (c_reg c) (c_dev c) t) (fn (c_block c)).

Section WithSetOrder.
  Variable set_iter : list nat -> list nat.
  (** register.py:379-388: the sites networkx computes for three or more qubits, or one *)
  Variable layout : nat -> M_Register.register.

  (** register.py:375-388 *)
  Definition alltoall_graph (n : nat) : M_Register.register := if Nat.eqb n 2 then M_Register.line_graph 2 else layout n.
  (** register.py:35-76 with a number of qubits *)
  Definition Register (n : nat) : M_Register.register := M_Register.Register_init (alltoall_graph n) (Some 1).
  (** circuit.py:35-53 with a number of qubits *)
  Definition QuantumCircuit (n : nat) (t : tree) : circuit := Circuit (Register n) (Some default_device) t.
  (** circuit.py:55-57 *)
  Definition n_qubits (c : circuit) : nat := length (c_reg c).

  (** flatten.py:19-48 [_flat_blocks(block, T)] and flatten.py:90-104 [flatten(block, [T])] *)
  Fixpoint cflatp (T : kind) (t : tree) : option (list tree) * option tree :=
    let go k bs :=
      let ys := if kind_eqb k T
                then omap (@concat tree) (osequence (map (fun x =>
                       if has_kind T x then fst (cflatp T x) else omap (fun y => [y]) (snd (cflatp T x))) bs))
                else osequence (map (fun x => snd (cflatp T x)) bs) in
      (ys, omap (tcomp k) ys) in
    match t with
    | TChain bs => go KChain bs
    | TKron bs => go KKron bs
    | TAdd bs => go KAdd bs
    | TLeaf b => let r := omap TLeaf (snd (flatp set_iter T b)) in (omap (fun y => [y]) r, r)
    | _ => (Some [t], Some t)
    end.
  (** flatten.py:90-104 *)
  Definition cflatten (types : list kind) (t : tree) : option tree :=
    fold_left (fun acc T => obind acc (fun x => snd (cflatp T x))) types (Some t).
  (** flatten.py:105-108 *)
  Definition flatten_circuit (types : list kind) (c : circuit) : option circuit :=
    omap (QuantumCircuit (n_qubits c)) (cflatten types (c_block c)).

  (** [block.qubit_support]: blocks/composite.py:52-54, blocks/analog.py:225-227 *)
  Fixpoint tsupport (t : tree) : support :=
    match t with
    | TInt _ s _ | TRot _ _ _ _ s _ => s
    | TLeaf b => bsup set_iter b
    | TAChain bs | TAKron bs | TChain bs | TKron bs | TAdd bs => fold_left (qs_add set_iter) (map tsupport bs) (SLocal [])
    end.
  (** transpile/circuit.py:8-13; the support of a block on all qubits contains no number *)
  Definition fill_circuit (c : circuit) : circuit :=
    match set_diff set_iter (seq 0 (n_qubits c)) (locals (tsupport (c_block c))) with
    | [] => c
    | empty => QuantumCircuit (n_qubits c) (TChain [c_block c; TChain (map (fun i => TLeaf (idb i)) empty)])
    end.

  (** digitalize.py:30-39 *)
  Fixpoint cdigitalize (approximation : M_Decompose.lts_order) (t : tree) : option tree :=
    match t with
    | TChain bs => omap TChain (osequence (map (cdigitalize approximation) bs))
    | TKron bs => omap TKron (osequence (map (cdigitalize approximation) bs))
    | TAdd bs => omap TAdd (osequence (map (cdigitalize approximation) bs))
    | TLeaf b => omap TLeaf (M_Digitalize.digitalize set_iter approximation b)
    | _ => Some t
    end.
  (** digitalize.py:42-44 *)
  Definition digitalize_circuit (approximation : M_Decompose.lts_order) (c : circuit) : option circuit :=
    omap (QuantumCircuit (n_qubits c)) (cdigitalize approximation (c_block c)).

  (** blocks/composite.py:144-146; blocks/analog.py:95-98 raises *)
  Fixpoint cdagger (t : tree) : option tree :=
    match t with
    | TChain bs => omap (fun l => TChain (rev l)) (osequence (map cdagger bs))
    | TKron bs => omap (fun l => TKron (rev l)) (osequence (map cdagger bs))
    | TAdd bs => omap (fun l => TAdd (rev l)) (osequence (map cdagger bs))
    | TLeaf b => Some (TLeaf (dagger b))
    | _ => None
    end.
  (** circuit.py:117-119 *)
  Definition dagger_circuit (c : circuit) : option circuit := omap (QuantumCircuit (n_qubits c)) (cdagger (c_block c)).

  (** measurements/utils.py:103-121: the circuit that is sampled for a Pauli term with these rotations *)
  Definition rotate (c : circuit) (rotations : list block) : circuit :=
    Circuit (c_reg c) (c_dev c) (TChain (c_block c :: map TLeaf rotations)).
  (** measurements/shadow.py:151-159: the circuit that is sampled for a shadow by a backend other than PyQTorch; circuit.py:43 *)
  Definition shadow_circuit (c : circuit) (rots : option block) : circuit :=
    QuantumCircuit (n_qubits c) (match rots with Some r => TChain [c_block c; TLeaf r] | None => c_block c end).
End WithSetOrder.
