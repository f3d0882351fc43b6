(** Model of the hardware-efficient ansatz, qadence/constructors/hea.py.  Parameters are identified by their names.
    [None] stands for a raised exception.  The tag of the result is not modelled. *)
From Coq Require Import String Reals List Arith Bool.
From Coquelicot Require Import Coquelicot.
From Coq Require Import List.
From Verif Require Import S_Ops M_QubitSupport M_Block M_BlockOps M_Tensor M_Transpile M_Names.
Import ListNotations.
Open Scope string_scope.

(** hea.py:11 and 147-151: the accepted entangling operations. *)
Inductive entop : Type := E_CNOT | E_CZ | E_CRX | E_CRY | E_CRZ | E_CPHASE.
(** hea.py:133-156 [_entangler] *)
Definition entangler (control target : nat) (param_str : string) (op : entop) : block :=
  match op with
  | E_CNOT => BCtrl [control] (BPrim PX target)
  | E_CZ => BCtrl [control] (BPrim PZ target)
  | E_CRX => BPCtrl [control] (BRot RX_ target (EVar param_str))
  | E_CRY => BPCtrl [control] (BRot RY_ target (EVar param_str))
  | E_CRZ => BPCtrl [control] (BRot RZ_ target (EVar param_str))
  | E_CPHASE => BPCtrl [control] (BRot RPhase target (EVar param_str))
  end.

Section WithSetOrder.
  Variable set_iter : list nat -> list nat.

  (** hea.py:118-121: one generator of a layer; [k] is the value of the shared counter before it. *)
  Definition rot_gates (n : nat) (prefix : string) (support : list nat) (gate : rot) (k : nat) : option (list block) :=
    osequence (map (fun i => obind (nth_error support i) (fun q => Some (BRot gate q (EVar (prefix ++ "_" ++ dec (k + i)))))) (seq 0 n)).
  (** hea.py:117-124: the krons of one layer, one per operation. *)
  Fixpoint rot_krons (n : nat) (prefix : string) (support : list nat) (ops : list rot) (k : nat) : option (list block) :=
    match ops with
    | [] => Some []
    | gate :: r =>
        obind (rot_gates n prefix support gate k) (fun gs =>
        obind (mk_kron set_iter gs) (fun kr =>
        obind (rot_krons n prefix support r (k + n)) (fun rest => Some (kr :: rest))))
    end.
  (** hea.py:98-126 [_rotations_digital]: [d] layers starting with the counter at [k]. *)
  Fixpoint rotations_digital (n d : nat) (prefix : string) (support : list nat) (ops : list rot) (k : nat) : option (list block) :=
    match d with
    | O => Some []
    | S d' =>
        obind (rot_krons n prefix support ops k) (fun rots =>
        obind (rotations_digital n d' prefix support ops (k + n * length ops)) (fun rest => Some (BChain rots :: rest)))
    end.

  (** hea.py:192-202 and 205-214: entanglers on the selected positions, numbered from [k]. *)
  Fixpoint ent_gates (n : nat) (prefix : string) (support : list nat) (op : entop) (positions : list nat) (k : nat) : option (list block) :=
    match positions with
    | [] => Some []
    | i :: r =>
        obind (nth_error support i) (fun c =>
        obind (nth_error support ((i + 1) mod n)) (fun t =>
        obind (ent_gates n prefix support op r (k + 1)) (fun rest =>
        Some (entangler c t (prefix ++ "_ent_" ++ dec k) op :: rest))))
    end.
  (** hea.py:199-200 and 212-213: the positions of the two krons. *)
  Definition even_positions (n : nat) : list nat := filter (fun i => Nat.even i && Nat.ltb i (n - 1)) (seq 0 n).
  Definition odd_positions (n : nat) (periodic : bool) : list nat :=
    filter Nat.odd (seq 0 (n - (if periodic then 0 else 1))).
  (** hea.py:188-215 [_entanglers_digital].  In the first kron the target is support[n + 1] with n + 1 < n_qubits, so the
      remainder in [ent_gates] changes nothing there. *)
  Fixpoint entanglers_digital (n d : nat) (prefix : string) (support : list nat) (periodic : bool) (op : entop) (k : nat) : option (list block) :=
    match d with
    | O => Some []
    | S d' =>
        obind (ent_gates n prefix support op (even_positions n) k) (fun ev =>
        obind (mk_kron set_iter ev) (fun kev =>
        let k1 := (k + length (even_positions n))%nat in
        if Nat.ltb 2 n then
          obind (ent_gates n prefix support op (odd_positions n periodic) k1) (fun od =>
          obind (mk_kron set_iter od) (fun kod =>
          obind (entanglers_digital n d' prefix support periodic op (k1 + length (odd_positions n periodic))) (fun rest =>
          Some (BChain [kev; kod] :: rest))))
        else
          obind (entanglers_digital n d' prefix support periodic op k1) (fun rest => Some (BChain [kev] :: rest))))
    end.

  (** hea.py:263-267: alternate the layers. *)
  Fixpoint interleave (a b : list block) : list block :=
    match a, b with x :: a', y :: b' => x :: y :: interleave a' b' | _, _ => [] end.
  (** hea.py:218-267 [hea_digital] with an accepted entangler; hea.py:67-68: the default support. *)
  Definition hea_digital (n depth : nat) (prefix : string) (support : option (list nat)) (periodic : bool) (ops : list rot) (op : entop) : option block :=
    let s := match support with Some s => s | None => seq 0 n end in
    obind (rotations_digital n depth prefix s ops 0) (fun rl =>
    obind (entanglers_digital n depth prefix s periodic op 0) (fun el =>
    Some (BChain (interleave rl el)))).

  (** hea.py:280-293 and 296-355 [hea_sDAQC] with an accepted generator. *)
  Definition entanglers_analog (depth : nat) (prefix : string) (gen : block) : list block :=
    map (fun d => BEvo gen (EVar (prefix ++ "_t_" ++ dec d))) (seq 0 depth).
  Definition hea_sDAQC (n depth : nat) (prefix : string) (support : option (list nat)) (ops : list rot) (gen : block) : option block :=
    let s := match support with Some s => s | None => seq 0 n end in
    obind (rotations_digital n depth prefix s ops 0) (fun rl => Some (BChain (interleave rl (entanglers_analog depth prefix gen)))).
End WithSetOrder.
