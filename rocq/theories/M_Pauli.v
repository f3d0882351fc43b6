(** Model of the Pauli-Hamiltonian helpers of qadence/blocks/utils.py and of [is_identity] (qadence/blocks/abstract.py). *)
From Coq Require Import String Reals List Arith Bool.
From Coquelicot Require Import Coquelicot.
From Coq Require Import List.
From Verif Require Import S_Ops M_QubitSupport M_Block M_BlockOps.
Import ListNotations.
Open Scope R_scope.
Open Scope nat_scope.

(** utils.py:148-173 [primitive_blocks]: ScaleBlocks are looked through, composites flattened, everything else is a PrimitiveBlock. *)
Fixpoint primitive_blocks (b : block) : list block :=
  match b with
  | BScale b' _ => primitive_blocks b'
  | BChain bs | BKron bs | BAdd bs => flat_map primitive_blocks bs
  | _ => [b]
  end.

(** operations/primitive.py:386: X, Y, Z, I, N. *)
Definition is_pauli (b : block) : bool :=
  match b with BPrim PX _ | BPrim PY _ | BPrim PZ _ | BPrim PI_ _ | BPrim (PN _) _ => true | _ => false end.

(** utils.py:176-198 with [raises=True]; [None] is NotPauliBlockError. *)
Fixpoint collect_paulis (l : list block) : option (list block) :=
  match l with
  | [] => Some []
  | b :: r => if is_pauli b then option_map (cons b) (collect_paulis r) else None
  end.
Definition get_pauli_blocks (b : block) : option (list block) := collect_paulis (primitive_blocks b).
(** utils.py:342-347. *)
Definition block_is_qubit_hamiltonian (b : block) : bool := match get_pauli_blocks b with Some _ => true | None => false end.

(** The names of the Pauli blocks as characters; the string-valued set of [_support_primitive_block] holds single characters. *)
Inductive pname := NX | NY | NZ | NI | NN_.
Definition pname_eq (a b : pname) : bool :=
  match a, b with NX, NX | NY, NY | NZ, NZ | NI, NI | NN_, NN_ => true | _, _ => false end.
Definition name_of_prim (p : prim) : option pname :=
  match p with PX => Some NX | PY => Some NY | PZ => Some NZ | PI_ => Some NI | PN _ => Some NN_ | _ => None end.

(** A dictionary from qubit to a set of names (no repetitions). *)
Definition supports := list (nat * list pname).
Fixpoint add_name (d : supports) (q : nat) (n : pname) : supports :=
  match d with
  | [] => [(q, [n])]
  | (q', s) :: r => if Nat.eqb q' q then (q', if existsb (pname_eq n) s then s else s ++ [n]) :: r else (q', s) :: add_name r q n
  end.
(** utils.py:363-382.  [None] is TypeError: a ChainBlock, or a primitive that is not a Pauli operator (the latter cannot happen after
    the assertion in the caller). *)
Fixpoint check_commutation (b : block) (d : supports) : option supports :=
  match b with
  | BAdd bs | BKron bs => fold_left (fun acc x => match acc with Some d => check_commutation x d | None => None end) bs (Some d)
  | BScale b' _ => check_commutation b' d
  | BPrim p q => option_map (add_name d q) (name_of_prim p)
  | _ => None
  end.
(** utils.py:385-400.  [None] is AssertionError or TypeError. *)
Definition block_is_commuting_hamiltonian (b : block) : option bool :=
  if block_is_qubit_hamiltonian b
  then option_map (fun d => forallb (fun qs => Nat.leb (length (snd qs)) 1) d) (check_commutation b [])
  else None.

(** utils.py:432-539 [unroll_block_with_scaling], with its accumulator. *)
Fixpoint unroll (b : block) (acc : list (block * expr)) : list (block * expr) :=
  match b with
  | BScale b' s =>
      match b' with
      | BAdd bs =>
          let idx := length acc in
          let l := fold_left (fun a x => unroll x a) bs acc in
          firstn idx l ++ map (fun bm => (fst bm, EMul s (snd bm))) (skipn idx l)
      | _ => acc ++ [(b', s)]
      end
  | BAdd bs => fold_left (fun a x => unroll x a) bs acc
  | _ => acc ++ [(b, ECst (RtoC 1))]
  end.
Definition unroll_block_with_scaling (b : block) : list (block * expr) := unroll b [].

(** abstract.py:331-343. *)
Fixpoint is_identity (b : block) : bool :=
  match b with
  | BChain bs | BKron bs | BAdd bs => forallb is_identity bs
  | BScale b' _ => is_identity b'
  | BPrim PI_ _ => true
  | _ => false
  end.
