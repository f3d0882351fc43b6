(** Model of the alternating layer ansatz, qadence/constructors/ala.py.  Its functions [_rotations_digital] (82-114) and [_entangler]
    (117-140) have the same text as those of hea.py, modelled in M_Hea.v.  Parameters are identified by their names.
    [None] stands for a raised exception.  The tag of the result is not modelled; the strategies other than DIGITAL raise
    NotImplementedError (255-270). *)
From Coq Require Import String Reals List Arith Bool ZArith.
From Coquelicot Require Import Coquelicot.
From Coq Require Import List.
From Verif Require Import S_Ops M_QubitSupport M_Block M_BlockOps M_Tensor M_Transpile M_Names M_Hea.
Import ListNotations.
Open Scope string_scope.

(** Python's [range(a, b, step)] for a positive step. *)
Definition zrange (a b step : Z) : list Z :=
  map (fun k => (a + Z.of_nat k * step)%Z) (seq 0 (Z.to_nat ((b - a + step - 1) / step))).
(** ala.py:171: [0 if not d % 2 else -m_block_qubits // 2], with the floor division of Python and of [Z.div]. *)
Definition start_i (m d : nat) : Z := if Nat.even d then 0%Z else (- Z.of_nat m / 2)%Z.
(** ala.py:180-182: the positions i + j of one kron, in order. *)
Definition ala_positions (n m d : nat) (start_j : Z) : list nat :=
  flat_map (fun j =>
    flat_map (fun i =>
      if ((i + j + 1 <? Z.of_nat n) && (j + 1 <? Z.of_nat m) && (0 <=? i + j))%Z then [Z.to_nat (i + j)] else [])
      (zrange (start_i m d) (Z.of_nat n) (Z.of_nat m)))
    (zrange start_j (Z.of_nat m) 2).
(** ala.py:184: [[i for i in range(2) if m_block_qubits > 2 or i == 0]]. *)
Definition start_js (m : nat) : list Z := if Nat.ltb 2 m then [0; 1]%Z else [0]%Z.

Section WithSetOrder.
  Variable set_iter : list nat -> list nat.
  (** ala.py:173-179: the entanglers of one kron, numbered from [k]. *)
  Fixpoint ala_gates (prefix : string) (support : list nat) (op : entop) (positions : list nat) (k : nat) : option (list block) :=
    match positions with
    | [] => Some []
    | p :: r =>
        obind (nth_error support p) (fun c =>
        obind (nth_error support (p + 1)) (fun t =>
        obind (ala_gates prefix support op r (k + 1)) (fun rest =>
        Some (entangler c t (prefix ++ "_ent_" ++ dec k) op :: rest))))
    end.
  (** ala.py:172-185: the krons of layer [d]. *)
  Fixpoint ala_krons (n m d : nat) (prefix : string) (support : list nat) (op : entop) (js : list Z) (k : nat) : option (list block) :=
    match js with
    | [] => Some []
    | j :: r =>
        obind (ala_gates prefix support op (ala_positions n m d j) k) (fun gs =>
        obind (mk_kron set_iter gs) (fun kr =>
        obind (ala_krons n m d prefix support op r (k + length (ala_positions n m d j))) (fun rest => Some (kr :: rest))))
    end.
  (** ala.py:143-188 [_entanglers_ala_block_digital]: [todo] layers from layer [d] on. *)
  Fixpoint entanglers_ala (n m : nat) (prefix : string) (support : list nat) (op : entop) (d todo k : nat) : option (list block) :=
    match todo with
    | O => Some []
    | S t =>
        obind (ala_krons n m d prefix support op (start_js m) k) (fun ks =>
        obind (entanglers_ala n m prefix support op (S d) t (k + length (flat_map (ala_positions n m d) (start_js m)))) (fun rest =>
        Some (BChain ks :: rest)))
    end.
  (** ala.py:191-249 [ala_digital] with an accepted entangler, and ala.py:50-51: the default support. *)
  Definition ala_digital (n m depth : nat) (prefix : string) (support : option (list nat)) (ops : list rot) (op : entop) : option block :=
    let s := match support with Some s => s | None => seq 0 n end in
    obind (rotations_digital set_iter n depth prefix s ops 0) (fun rl =>
    obind (entanglers_ala n m (prefix ++ "_ent") s op 0 depth 0) (fun el =>
    Some (BChain (interleave rl el)))).
End WithSetOrder.
