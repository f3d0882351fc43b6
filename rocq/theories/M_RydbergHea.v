(** Model of the ansatz and feature maps for neutral atoms: qadence/constructors/rydberg_hea.py and
    qadence/constructors/rydberg_feature_maps.py.  Parameters are identified by their names.  [None] stands for a raised exception. *)
From Coq Require Import String Reals List Arith Bool.
From Coquelicot Require Import Coquelicot.
From Coq Require Import List.
From Verif Require M_Analog M_PSR.
From Verif Require Import S_Ops M_QubitSupport M_Block M_BlockOps M_Tensor M_Transpile M_Names M_Hamiltonians M_Rydberg M_FeatureMap.
Import ListNotations.
Open Scope R_scope.

(** * rydberg_hea.py *)
(** rydberg_hea.py:16-42.  [None]: AssertionError. *)
Definition amplitude_map (n_qubits : nat) (pauli_op : prim) (weights : option (list expr)) : option block :=
  match weights with
  | None => Some (BAdd (map (BPrim pauli_op) (seq 0 n_qubits)))
  | Some ws => if Nat.leb (length ws) n_qubits
               then Some (BAdd (map (fun jw => op_scale (BPrim pauli_op (fst jw)) (snd jw)) (combine (seq 0 (length ws)) ws)))
               else None
  end.

Section Hea.
  Variable set_iter : list nat -> list nat.
  (** blocks/utils.py:342-347; only consulted for a custom interaction function. *)
  Variable is_hamiltonian : block -> bool.

  (** rydberg_hea.py:45-101.  The register is given by its nodes and edges; its n_qubits is the number of nodes (register.py:78-81). *)
  Definition rydberg_hea_layer (r : hreg) (tevo_drive tevo_det tevo_wait : expr) (phase : option expr)
      (detunings drives : option (list expr)) (drive_scaling : R) : option block :=
    let n_qubits := length (hnodes r) in
    obind (amplitude_map n_qubits PX drives) (fun drive_x =>
    obind (amplitude_map n_qubits PY drives) (fun drive_y =>
    obind (amplitude_map n_qubits (PN true) detunings) (fun detuning =>
    obind (hamiltonian_factory set_iter is_hamiltonian r (Some INN) None SNone SNone None false) (fun interaction =>
    let s := ECst (RtoC drive_scaling) in
    let generator := match phase with
                     | Some p => op_add (op_sub (op_scale drive_x (EMul s (EFun FCos p))) (op_scale drive_y (EMul s (EFun FSin p)))) interaction
                     | None => op_add (op_scale drive_x s) interaction
                     end in
    Some (BChain [BEvo generator tevo_drive; BEvo interaction tevo_wait; BEvo detuning tevo_det]))))).

  (** rydberg_hea.py:104-191. *)
  Definition rydberg_hea (r : hreg) (n_layers : nat) (addressable_detuning addressable_drive tunable_phase : bool)
      (additional_prefix : option string) : option block :=
    let n_qubits := length (hnodes r) in
    let prefix := match additional_prefix with None => ""%string | Some p => ("_" ++ p)%string end in
    let detunings := if addressable_detuning then Some (map (fun j => EVar ("detmap_" ++ dec j)) (seq 0 n_qubits)) else None in
    let drives := if addressable_drive then Some (map (fun j => EVar ("drivemap_" ++ dec j)) (seq 0 n_qubits)) else None in
    let phase := if tunable_phase then Some (EVar "phase") else None in
    option_map BChain (osequence (map (fun layer =>
      rydberg_hea_layer r (EVar ("At" ++ prefix ++ "_" ++ dec layer)) (EVar ("Omega" ++ prefix ++ "_" ++ dec layer))
        (EVar ("wait" ++ prefix ++ "_" ++ dec layer)) phase detunings drives 1) (seq 0 n_layers))).
End Hea.

(** * rydberg_feature_maps.py *)
(** rydberg_feature_maps.py:20-59 with the values of the parameters: [x] that of the feature parameter, [w] those of the trainable
    parameters that are made without weights.  The result is a KronBlock (not an AnalogKron: the argument of [kron] is a generator).
    [None]: IndexError for missing weights, ZeroDivisionError for weights whose sum is zero, ValueError of AnalogRot for a weight
    or a maximal detuning of zero, NotImplementedError for no qubits; for trainable weights whose values sum to zero and for
    a maximal detuning of zero the evaluation gives no number.  AnalogRot's check compares expressions (operations/analog.py:134), so it never refuses trainable weights. *)
Definition rydberg_feature_map (n_qubits : nat) (max_abs_detuning : R) (weights : option (list R)) (w : nat -> R) (x : R) : option tree :=
  obind (match weights with
         | None => Some (map w (seq 0 n_qubits))
         | Some ws => osequence (map (nth_error ws) (seq 0 n_qubits)) end) (fun tower_coeffs =>
  let total := M_PSR.rsum tower_coeffs in
  if Req_EM_T total 0 then None else if Req_EM_T max_abs_detuning 0 then None else
  let tower_detuning := max_abs_detuning / total in
  let duration := 1000 * x / tower_detuning in
  let rotation delta s := match weights with
                          | None => Some (TRot duration 0 delta 0 s true)
                          | Some _ => AnalogRot duration 0 delta 0 s true end in
  obind (osequence (map (fun iw => rotation (- tower_detuning * snd iw) (SLocal [fst iw]))
                        (combine (seq 0 n_qubits) tower_coeffs))) (fun rots =>
  match rots with [] => None | _ => Some (TKron rots) end)).

(** rydberg_feature_maps.py:62-68. *)
Definition rydberg_tower_feature_map (n_qubits : nat) (max_abs_detuning : R) (x : R) : option tree :=
  rydberg_feature_map n_qubits max_abs_detuning (Some (map INR (seq 1 n_qubits))) (fun _ => 0) x.

(** transpile/block.py:251-255 and 276-289 with blocks/utils.py:99-106: the pass that runs before the translation of analog blocks
    (backends/pyqtorch/config.py:22-37; transpile.py:79 applies the passes in reversed order) rebuilds a KronBlock from its parts,
    and parts that are all analog give an AnalogKron, with the checks of blocks/analog.py:295-318. *)
Definition leaf (t : tree) : M_Analog.ablock :=
  match t with TInt d s _ => M_Analog.ALeaf d s | TRot d _ _ _ s _ => M_Analog.ALeaf d s | _ => M_Analog.AChain [] end.
Definition rebuild_kron (set_iter : list nat -> list nat) (t : tree) : option tree :=
  match t with
  | TKron bs => if forallb (fun b => match b with TInt _ _ _ | TRot _ _ _ _ _ _ => true | _ => false end) bs
                then option_map (fun _ => TAKron bs) (M_Analog.mk_kron set_iter (map leaf bs))
                else Some t
  | _ => Some t
  end.

(** The values of [reupload_scaling]: the constant scaling, a callable, anything else. *)
Inductive analog_reupload := Constant | Callable (f : (R -> tree) -> R -> tree) | OtherScaling.
(** rydberg_feature_maps.py:71-119 with the values of the parameters; [op] is AnalogRX, AnalogRY, AnalogRZ or a callable. *)
Definition analog_feature_map (op : R -> tree) (fm : fm_type) (reupload_scaling : analog_reupload)
    (feature_range target_range : option (R * R)) (multiplier : option R) (x : R) : option tree :=
  obind (fm_parameter_scaling fm feature_range target_range x) (fun scaled =>
  let transformed := fm_parameter_func fm scaled in
  let m := match multiplier with None => 1 | Some m => m end in
  match reupload_scaling with
  | Callable f => Some (f op (m * transformed))
  | Constant => Some (op (m * transformed))
  | OtherScaling => None
  end).
