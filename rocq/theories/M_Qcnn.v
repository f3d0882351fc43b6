(** Model of the quantum convolutional network: qadence/ml_tools/qcnn_model.py:16-163 (QCNN) and qadence/ml_tools/constructors.py:828-1076
    (_create_feature_map_qcnn, _get_block_params, _create_single_W, _create_conv_layer).
    Simplifications: numbers are natural numbers (a negative odd depth, which gives an empty layer, is left out); tags are left out; the dictionary params is
    split into its counters, which are the entries param_index_l_r, and its parameters, which are named by their keys; the angles of the feature map are
    numbers, computed from the values of the features; the entangler is a function of two qubits; [None] stands for a raised exception. *)
From Coq Require Import String Reals List Arith Bool.
From Coquelicot Require Import Coquelicot.
From Coq Require Import List.
From Verif Require Import S_Ops M_QubitSupport M_Block M_BlockOps M_Tensor M_Transpile M_Names M_Embedding M_FeatureMap M_QnnConfig.
Import ListNotations.
Open Scope string_scope.
Open Scope list_scope.
Open Scope nat_scope.

(** l[::2] and l[1::2]. *)
Fixpoint every_second {A} (l : list A) : list A := match l with [] => [] | [a] => [a] | a :: _ :: r => a :: every_second r end.
Definition other_second {A} (l : list A) : list A := every_second (tl l).
(** constructors.py:1027-1031 and 1057: the pairs of a repetition. *)
Definition pairs (layer rep : nat) (idx : list nat) : list (nat * nat) :=
  if Nat.leb layer 1 && Nat.odd rep
  then combine (every_second (removelast (tl idx))) (every_second (removelast (tl (tl idx))))
  else combine (every_second idx) (other_second idx).

(** constructors.py:888-896. *)
Definition param_name (layer rep pos : nat) (is_corr : bool) : string :=
  (if is_corr then "θ_" ++ dec layer ++ "_" ++ dec (pos mod 9) else "θ_" ++ dec layer ++ "_" ++ dec rep ++ "_" ++ dec pos)%string.
(** constructors.py:920. *)
Definition counter_key (layer rep : nat) : string := ("param_index_" ++ dec layer ++ "_" ++ dec rep)%string.

Section WithSetOrder.
  Variable set_iter : list nat -> list nat.
  Variable entangler : nat -> nat -> block.
  Variable operations : list rot.
  Variable is_corr : bool.
  Variable n_qubits : nat.

  (** constructors.py:912-916. *)
  Definition padding (control target spacing : nat) : list block :=
    map (BPrim PI_) (filter (fun q => negb (Nat.eqb q control) && negb (Nat.eqb q target) && Nat.ltb q n_qubits)
      (seq (control - spacing) (control + spacing + 1 - (control - spacing)))).
  (** constructors.py:928-940 and 971-983: the rotations of control and target, with the parameters from number [pos] on. *)
  Fixpoint op_gates (pad : list block) (ops : list rot) (layer rep control target pos : nat) : option (list block) :=
    match ops with
    | [] => Some []
    | op :: r =>
        obind (mk_kron set_iter (pad ++ [BRot op control (EVar (param_name layer rep pos is_corr)); BRot op target (EVar (param_name layer rep (pos + 1) is_corr))])) (fun k =>
        obind (op_gates pad r layer rep control target (pos + 2)) (fun rest => Some (k :: rest)))
    end.
  (** constructors.py:898-991. *)
  Definition create_single_W (counters : list (string * nat)) (layer rep max_reps control target spacing : nat) : option (block * list (string * nat)) :=
    let pad := padding control target spacing in
    let key := counter_key layer rep in
    let p0 := match get counters key with Some p => p | None => 0 end in
    let theta p := EVar (param_name layer rep p is_corr) in
    obind (op_gates pad operations layer rep control target p0) (fun first =>
    let p1 := p0 + 2 * length operations in
    obind (mk_kron set_iter (pad ++ [BRot RZ_ control (theta p1); BRot RY_ target (theta (p1 + 1))])) (fun k1 =>
    obind (mk_kron set_iter (pad ++ [BPrim PI_ control; BRot RY_ target (theta (p1 + 2))])) (fun k2 =>
    obind (op_gates pad operations layer rep control target (p1 + 3)) (fun last =>
    let p2 := p1 + 3 + 2 * length operations in
    Some (BChain (first ++ [entangler target control; k1; entangler control target; k2; entangler target control] ++ last ++
                  (if Nat.eqb rep (max_reps - 1) then [entangler control target] else [])), set counters key p2))))).
  (** constructors.py:1034-1049 and 1057-1072: the cells of one repetition. *)
  Fixpoint cells (counters : list (string * nat)) (layer rep max_reps : nat) (ps : list (nat * nat)) : option (list block * list (string * nat)) :=
    match ps with
    | [] => Some ([], counters)
    | (control, target) :: r =>
        obind (create_single_W counters layer rep max_reps control target layer) (fun w =>
        obind (cells (snd w) layer rep max_reps r) (fun ws => Some (fst w :: fst ws, snd ws)))
    end.
  (** constructors.py:1021-1073: the repetitions from number [rep] on; in the first two layers the cells of a repetition are one kron. *)
  Fixpoint repetitions (todo : nat) (counters : list (string * nat)) (layer rep max_reps : nat) (idx : list nat) : option (list block * list (string * nat)) :=
    match todo with
    | O => Some ([], counters)
    | S todo' =>
        obind (cells counters layer rep max_reps (pairs layer rep idx)) (fun c =>
        obind (if Nat.leb layer 1 then option_map (fun k => [k]) (mk_kron set_iter (fst c)) else Some (fst c)) (fun bs =>
        obind (repetitions todo' (snd c) layer (rep + 1) max_reps idx) (fun rest => Some (bs ++ fst rest, snd rest))))
    end.
  (** constructors.py:994-1076. *)
  Definition create_conv_layer (layer max_reps : nat) (idx : list nat) (counters : list (string * nat)) : option (block * list (string * nat)) :=
    obind (repetitions max_reps counters layer 0 max_reps idx) (fun r =>
    Some (if Nat.leb layer 1 then BChain [BChain (fst r)] else BChain (fst r), snd r)).
  (** qcnn_model.py:118-138. *)
  Fixpoint conv_layers (layer : nat) (depth : list nat) (idx : list nat) (counters : list (string * nat)) : option (list block) :=
    match depth with
    | [] => Some []
    | reps :: r =>
        if Nat.ltb (length idx) 2 then None else
        obind (create_conv_layer layer reps idx counters) (fun l =>
        obind (conv_layers (layer + 1) r (other_second idx) (snd l)) (fun rest => Some (fst l :: rest)))
    end.

  (** constructors.py:843-863: the supports of the feature maps, from input [i] on. *)
  Fixpoint input_supports (todo i start n_inputs : nat) : list (list nat) :=
    match todo with
    | O => []
    | S todo' =>
        let num := if Nat.ltb i (n_qubits mod n_inputs) then n_qubits / n_inputs + 1 else n_qubits / n_inputs in
        seq start num :: input_supports todo' (i + 1) (start + num) n_inputs
    end.
  (** constructors.py:828-866. *)
  Definition create_feature_map (n_inputs : nat) (fm_basis : fm_type) (fm_gate : rot) (rho : env) : option block :=
    if Nat.eqb n_inputs 0 then None else
    obind (osequence (map (fun is : nat * list nat => let '(i, support) := is in
      obind (feature_map (length support) (Some support) fm_basis CONSTANT None None None None (rho ("φ_" ++ dec i)%string)) (fun gates =>
      mk_kron set_iter (map (fun qa => BRot fm_gate (fst qa) (ECst (RtoC (snd qa)))) gates)))
      (combine (seq 0 n_inputs) (input_supports n_inputs 0 0 n_inputs)))) (mk_kron set_iter).
  (** qcnn_model.py:76-143. *)
  Definition qcnn_circuit (n_inputs : nat) (depth : list nat) (fm_basis : fm_type) (fm_gate : rot) (rho : env) : option block :=
    if Nat.ltb n_qubits 4 || Nat.odd n_qubits || existsb Nat.even depth then None else
    obind (create_feature_map n_inputs fm_basis fm_gate rho) (fun fm =>
    obind (conv_layers 0 depth (seq 0 n_qubits) []) (fun ls => quantum_circuit set_iter n_qubits [fm; BChain ls])).
  (** qcnn_model.py:68. *)
  Definition qcnn_inputs (n_inputs : nat) : list string := map (fun i => ("φ_" ++ dec i)%string) (seq 0 n_inputs).
End WithSetOrder.
(** qcnn_model.py:145-163. *)
Definition qcnn_deferred_obs (n_qubits : nat) (random_meas : bool) : block :=
  BAdd (map (fun i => if random_meas then BScale (BPrim PZ i) (EVar ("w" ++ dec i)%string) else BPrim PZ i) (seq 0 n_qubits)).
