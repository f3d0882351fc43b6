(** Model of the construction of a QNN from configurations: qadence/ml_tools/config.py:271-474 and 477-581 (FeatureMapConfig, AnsatzConfig) and
    qadence/ml_tools/constructors.py:89-707 and 745-825 (the feature maps, the ansatz, the layers between the uploads, the circuit).
    The observable is in M_Hamiltonians, the functions feature_map, hea, iia and ala in their own files.
    Simplifications: the register is a number of qubits 0..n-1; tags are left out; the angles of a feature map are numbers, computed from the values
    that the features and the trainable weights have in an environment; [None] stands for a raised exception.  Blocks made by an analog
    operation, by rydberg_feature_map and by rydberg_hea enter through functions that return them. *)
From Coq Require Import String Reals List Arith Bool ZArith.
From Coquelicot Require Import Coquelicot.
From Coq Require Import List.
From Verif Require Import S_Ops M_QubitSupport M_Block M_BlockOps M_Tensor M_Transpile M_Names M_Embedding M_Features M_FeatureMap M_Hamiltonians M_Hea M_Iia M_Ala.
Import ListNotations.
Open Scope string_scope.
Open Scope list_scope.

(** types.py: Strategy. *)
Inductive strat := DIGITAL | ANALOG | SDAQC | BDAQC | RYDBERG.
(** The operation of a feature map: a rotation class, or a function that makes an analog block from an angle (AnalogRX, ...). *)
Inductive operation := OpRot (r : rot) | OpAnalog (f : R -> block).
(** A property given once for all features, or as a dictionary. *)
Inductive setting (A : Type) := Same (a : A) | PerFeature (d : list (string * A)).
Arguments Same {A}. Arguments PerFeature {A}.

(** config.py:272-391: what is passed to FeatureMapConfig. *)
Record fm_args := FmArgs {
  g_num_features : nat; g_basis_set : setting fm_type; g_reupload_scaling : setting reupload;
  g_feature_range : setting (option (R * R)); g_target_range : setting (option (R * R));
  g_multivariate : strategy; g_strategy : strat; g_prefix : option string; g_num_repeats : setting Z;
  g_operation : option operation; g_inputs : option (list string) }.
(** The fields after __post_init__. *)
Record fm_config := FmConfig {
  c_num_features : nat; c_basis_set : list (string * fm_type); c_reupload_scaling : list (string * reupload);
  c_feature_range : list (string * option (R * R)); c_target_range : list (string * option (R * R));
  c_multivariate : strategy; c_strategy : strat; c_prefix : option string; c_num_repeats : list (string * Z);
  c_operation : option operation; c_inputs : list string }.

(** The arguments of AnsatzConfig.strategy_args that are read; [operation] (without s) is the key read for ALA. *)
Inductive entangler_arg := EntOp (op : entop) | EntGen (g : block).
Record ansatz_args := AnsatzArgs { t_operations : option (list rot); t_operation : option (list rot); t_entangler : option entangler_arg; t_periodic : option bool }.
Inductive ansatz_type := HEA | IIA | ALA.
(** config.py:477-561. *)
Record ansatz_config := AnsatzConfig { a_depth : nat; a_type : ansatz_type; a_strategy : strat; a_args : ansatz_args; a_m_block_qubits : option nat; a_prefix : string }.

(** set(a) == set(b) *)
Definition same_keys (a b : list string) : bool :=
  forallb (fun x => existsb (String.eqb x) b) a && forallb (fun x => existsb (String.eqb x) a) b.
(** config.py:458-474: a dictionary must have the inputs as its keys; a single value is given to each of them. *)
Definition settle {A} (inputs : list string) (s : setting A) : option (list (string * A)) :=
  match s with
  | Same a => Some (map (fun k => (k, a)) inputs)
  | PerFeature d => if same_keys (map fst d) inputs then Some d else None
  end.
(** config.py:432-441: the inputs. *)
Definition settle_inputs (num_features : nat) (inputs : option (list string)) : option (list string) :=
  match inputs with
  | Some l => if Nat.eqb (length l) num_features then Some l else None
  | None => match num_features with 0 => Some [] | 1 => Some ["x"] | _ => None end
  end.
(** config.py:563-581: AnsatzConfig.__post_init__. *)
Definition check_ansatz (a : ansatz_config) : option ansatz_config :=
  match a_type a with
  | IIA => match a_strategy a with RYDBERG => None | _ => Some a end
  | ALA => match a_strategy a, a_m_block_qubits a with DIGITAL, Some _ => Some a | _, _ => None end
  | HEA => Some a
  end.

(** max(d.values()) *)
Definition max_value (d : list (string * Z)) : option Z :=
  match d with [] => None | (_, k) :: r => Some (fold_left (fun m e => Z.max m (snd e)) r k) end.
(** constructors.py:121-137 (also 188-204, 256-270, 328-338): one pass over the inputs.  [u] is the dictionary num_uploads. *)
Fixpoint one_round (inputs : list string) (u : list (string * Z)) : option (list string * list (string * Z)) :=
  match inputs with
  | [] => Some ([], u)
  | f :: r => obind (get u f) (fun k => obind (one_round r (set u f (k - 1)%Z)) (fun res =>
      Some (if (0 <? k)%Z then f :: fst res else fst res, snd res)))
  end.
Fixpoint rounds_of (n : nat) (inputs : list string) (u : list (string * Z)) : option (list (list string)) :=
  match n with
  | O => Some []
  | S n' => obind (one_round inputs u) (fun res => obind (rounds_of n' inputs (snd res)) (fun rest => Some (fst res :: rest)))
  end.
(** constructors.py:112, 120: num_uploads and the rounds; the features encoded in each round. *)
Definition rounds (c : fm_config) : option (list (list string)) :=
  let u := map (fun kv => (fst kv, snd kv + 1)%Z) (c_num_repeats c) in
  obind (max_value u) (fun m => rounds_of (Z.to_nat m) (c_inputs c) u).

Section WithSetOrder.
  Variable set_iter : list nat -> list nat.
  (** blocks/utils.py:342-347 [block_is_qubit_hamiltonian]. *)
  Variable is_hamiltonian : block -> bool.
  (** AnalogRX; rydberg_feature_map (or the tower variant); rydberg_hea with the flags in strategy_args. *)
  Variable analog_rx : R -> block.
  Variable rydberg_map : bool -> nat -> string -> env -> option block.
  Variable rydberg_ansatz : nat -> nat -> string -> option block.
  (** The random initial values of iia. *)
  Variable random : string -> nat -> nat -> R.

  (** config.py:400-430: the operation and the strategy.  isinstance(self.operation, ...) is asked of a class or a function, so it is False. *)
  Definition settle_strategy (s : strat) (op : option operation) : strat * option operation :=
    match op with
    | None => (s, match s with DIGITAL => Some (OpRot RX_) | ANALOG => Some (OpAnalog analog_rx) | _ => None end)
    | Some o => (match s with RYDBERG => DIGITAL | _ => s end, Some o)
    end.
  (** config.py:393-474: FeatureMapConfig.__post_init__. *)
  Definition fm_post_init (g : fm_args) : option fm_config :=
    let parallel_ok := match g_multivariate g, g_strategy g with Parallel, DIGITAL => true | Parallel, _ => Nat.leb (g_num_features g) 1 | _, _ => true end in
    if parallel_ok then
      let '(s, op) := settle_strategy (g_strategy g) (g_operation g) in
      obind (settle_inputs (g_num_features g) (g_inputs g)) (fun inputs =>
      obind (settle inputs (g_basis_set g)) (fun basis =>
      obind (settle inputs (g_reupload_scaling g)) (fun scaling =>
      obind (settle inputs (g_feature_range g)) (fun frange =>
      obind (settle inputs (g_target_range g)) (fun trange =>
      obind (settle inputs (g_num_repeats g)) (fun repeats =>
      Some (FmConfig (g_num_features g) basis scaling frange trange (g_multivariate g) s (g_prefix g) repeats op inputs)))))))
    else None.

  (** constructors.py:114-117: the weights of a trainable feature map, feature_maps.py:190-192. *)
  Definition weights (c : fm_config) (rho : env) (f : string) : option (nat -> R) :=
    match c_prefix c with None => None | Some p => Some (fun i => rho (p ++ "_" ++ f ++ "_" ++ dec i)%string) end.
  (** constructors.py:124-136: one call of feature_map with the settings of the feature; feature_maps.py:162-166: other operations raise. *)
  Definition feature_block (c : fm_config) (rho : env) (n : nat) (support : list nat) (f : string) : option block :=
    obind (get (c_basis_set c) f) (fun basis => obind (get (c_reupload_scaling c) f) (fun scaling =>
    obind (get (c_feature_range c) f) (fun frange => obind (get (c_target_range c) f) (fun trange =>
    match c_operation c with
    | Some (OpRot r) =>
        obind (feature_map n (Some support) basis scaling frange trange None (weights c rho f) (rho f)) (fun gates =>
        mk_kron set_iter (map (fun qa => BRot r (fst qa) (ECst (RtoC (snd qa)))) gates))
    | _ => None
    end)))).
  (** constructors.py:101-110: a dictionary comprehension over a zip; the last entry of a key counts. *)
  Definition support_arrays (c : fm_config) (n : nat) : option (list (string * list nat)) :=
    obind (create_support_arrays n (c_num_features c) (c_multivariate c)) (fun l => Some (rev (combine (c_inputs c) l))).

  (** constructors.py:89-139. *)
  Definition encode_features_series_digital (n : nat) (c : fm_config) (rho : env) : option (list block) :=
    obind (support_arrays c n) (fun sup => obind (rounds c) (fun rs =>
    osequence (map (fun f => obind (get sup f) (fun s => feature_block c rho n s f)) (concat rs)))).
  (** constructors.py:142-208. *)
  Definition encode_features_parallel_digital (n : nat) (c : fm_config) (rho : env) : option (list block) :=
    obind (support_arrays c n) (fun sup => obind (rounds c) (fun rs =>
    osequence (map (fun fs => obind (osequence (map (fun f => obind (get sup f) (fun s => feature_block c rho (length s) s f)) fs)) (mk_kron set_iter)) rs))).
  (** constructors.py:211-242. *)
  Definition create_digital_fm (n : nat) (c : fm_config) (rho : env) : option (list block) :=
    match c_multivariate c with
    | Series => encode_features_series_digital n c rho
    | Parallel => encode_features_parallel_digital n c rho
    | StratOther => None
    end.
  (** rydberg_feature_maps.py:72-127: a rotation class called with an angle only raises; only the constant scaling is implemented (a custom
      function of the operation and the angle is not modelled). *)
  Definition analog_block (c : fm_config) (rho : env) (f : string) : option block :=
    obind (get (c_basis_set c) f) (fun basis => obind (get (c_reupload_scaling c) f) (fun scaling =>
    obind (get (c_feature_range c) f) (fun frange => obind (get (c_target_range c) f) (fun trange =>
    obind (fm_parameter_scaling basis frange trange (rho f)) (fun scaled =>
    match c_operation c, scaling with Some (OpAnalog op), CONSTANT => Some (op (fm_parameter_func basis scaled)) | _, _ => None end))))).
  (** constructors.py:245-274. *)
  Definition create_analog_fm (c : fm_config) (rho : env) : option (list block) :=
    obind (rounds c) (fun rs => osequence (map (analog_block c rho) (concat rs))).
  (** constructors.py:277-306. *)
  Definition encode_feature_rydberg (n : nat) (rho : env) (f : string) (scaling : reupload) : option block :=
    match scaling with CONSTANT => rydberg_map false n f rho | TOWER => rydberg_map true n f rho | _ => None end.
  (** constructors.py:309-342. *)
  Definition create_rydberg_fm (n : nat) (c : fm_config) (rho : env) : option (list block) :=
    obind (rounds c) (fun rs => osequence (map (fun f => obind (get (c_reupload_scaling c) f) (encode_feature_rydberg n rho f)) (concat rs))).
  (** constructors.py:345-380. *)
  Definition create_fm_blocks (n : nat) (c : fm_config) (rho : env) : option (list block) :=
    match c_strategy c with
    | DIGITAL => create_digital_fm n c rho
    | ANALOG => create_analog_fm c rho
    | RYDBERG => create_rydberg_fm n c rho
    | _ => None
    end.

  Definition or_default {A} (o : option A) (d : A) : A := match o with Some a => a | None => d end.
  (** constructors.py:412-486; iia.py:155-201: the entangler has to fit the strategy. *)
  Definition create_iia (n : nat) (a : ansatz_config) : option block :=
    let ops := or_default (t_operations (a_args a)) [RX_; RY_] in
    let periodic := or_default (t_periodic (a_args a)) false in
    match a_strategy a, or_default (t_entangler (a_args a)) (EntOp E_CNOT) with
    | DIGITAL, EntOp op => option_map fst (iia set_iter n (a_depth a) (a_prefix a) (Digital op periodic) ops (random (a_prefix a)))
    | SDAQC, EntGen g => if is_hamiltonian g then option_map fst (iia set_iter n (a_depth a) (a_prefix a) (Analog g) ops (random (a_prefix a))) else None
    | _, _ => None
    end.
  (** constructors.py:489-598. *)
  Definition create_hea (n : nat) (a : ansatz_config) : option block :=
    let ops := or_default (t_operations (a_args a)) [RX_; RY_; RX_] in
    match a_strategy a with
    | DIGITAL =>
        match or_default (t_entangler (a_args a)) (EntOp E_CNOT) with
        | EntOp op => hea_digital set_iter n (a_depth a) (a_prefix a) None (or_default (t_periodic (a_args a)) false) ops op
        | EntGen _ => None
        end
    | SDAQC =>
        obind (hamiltonian_factory set_iter is_hamiltonian (alltoall n) (Some INN) None SNone SNone None false) (fun nn =>
        match or_default (t_entangler (a_args a)) (EntGen nn) with
        | EntGen g => if is_hamiltonian g then hea_sDAQC set_iter n (a_depth a) (a_prefix a) None ops g else None
        | EntOp _ => None
        end)
    | RYDBERG => rydberg_ansatz n (a_depth a) (a_prefix a)
    | _ => None
    end.
  (** constructors.py:601-650; the default depth of ala_digital is 1. *)
  Definition create_ala (n : nat) (a : ansatz_config) : option block :=
    match a_strategy a, or_default (t_entangler (a_args a)) (EntOp E_CNOT) with
    | DIGITAL, EntOp op => obind (a_m_block_qubits a) (fun m => ala_digital set_iter n m 1 (a_prefix a) None (or_default (t_operation (a_args a)) [RX_; RY_; RX_]) op)
    | _, _ => None
    end.
  (** constructors.py:653-681. *)
  Definition create_ansatz (n : nat) (a : ansatz_config) : option block :=
    match a_type a with IIA => create_iia n a | HEA => create_hea n a | ALA => create_ala n a end.
  (** constructors.py:383-409: the new configuration is checked; it has no m_block_qubits. *)
  Definition ansatz_layer (n : nat) (a : ansatz_config) (index : nat) : option block :=
    obind (check_ansatz (AnsatzConfig 1 (a_type a) (a_strategy a) (a_args a) None ("fm_" ++ dec index)%string)) (create_ansatz n).
  (** constructors.py:684-707, from the block with number [idx] on. *)
  Fixpoint interleave_from (n : nat) (a : ansatz_config) (idx : nat) (fm_blocks : list block) : option (list block) :=
    match fm_blocks with
    | [] => Some []
    | [b] => Some [b]
    | b :: r => obind (ansatz_layer n a idx) (fun l => obind (interleave_from n a (S idx) r) (fun rest => Some (b :: l :: rest)))
    end.
  Definition interleave_ansatz_in_fm (n : nat) (fm_blocks : list block) (a : ansatz_config) : option block :=
    obind (interleave_from n a 0 fm_blocks) (fun l => Some (BChain l)).

  (** circuit.py:40-48. *)
  Definition quantum_circuit (n : nat) (blocks : list block) : option block :=
    let b := match blocks with [b] => b | _ => BChain blocks end in
    if Nat.ltb n (nqubits set_iter b) then None else Some b.
  (** constructors.py:773-795: the block of the circuit for the given values of the features and weights, and the inputs handed to QNN. *)
  Definition build (n : nat) (c : fm_config) (a : ansatz_config) (rho : env) : option (block * option (list string)) :=
    obind (if Nat.ltb 0 (c_num_features c)
           then obind (create_fm_blocks n c rho) (fun bs => obind (interleave_ansatz_in_fm n bs a) (fun fm => Some ([fm], Some (c_inputs c))))
           else Some ([], None)) (fun r =>
    obind (create_ansatz n a) (fun an =>
    obind (quantum_circuit n (fst r ++ [an])) (fun circ => Some (circ, snd r)))).
End WithSetOrder.
