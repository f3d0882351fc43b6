(** Model of the translation of analog blocks into Hamiltonian evolutions: qadence/analog/hamiltonian_terms.py,
    qadence/analog/parse_analog.py, qadence/transpile/apply_fn.py and the constructors of qadence/operations/analog.py.
    Every analog parameter (duration, omega, delta, phase, the numbers of the addressing pattern) stands for its current value.
    AnalogEntanglement and scaled analog blocks, which the translation leaves as they are, are not modelled. *)
From Coq Require Import String Reals List Arith Bool.
From Coquelicot Require Import Coquelicot.
From Coq Require Import List.
From Verif Require M_Register M_Addressing.
From Verif Require Import S_Ops M_QubitSupport M_Block M_BlockOps M_Tensor M_Transpile M_Hamiltonians.
Import ListNotations.
Open Scope R_scope.

(** analog/device.py:12-61: the fields the translation reads; the constructor refuses other interactions. *)
Inductive coupling := NN | XY.
Record device := Device { d_coupling : coupling; d_level : nat; d_coeff_xy : R; d_pattern : option M_Addressing.pattern }.

(** The blocks of a circuit: InteractionBlock (blocks/analog.py:101-140), ConstantAnalogRotation (143-203), AnalogChain (248-281),
    AnalogKron (284-322), a digital block that is not composite, and ChainBlock, KronBlock and AddBlock. *)
Inductive tree :=
| TInt (dur : R) (s : support) (add_pattern : bool)
| TRot (dur omega delta phase : R) (s : support) (add_pattern : bool)
| TAChain (bs : list tree)
| TAKron (bs : list tree)
| TLeaf (b : block)
| TChain (bs : list tree)
| TKron (bs : list tree)
| TAdd (bs : list tree).

(** operations/analog.py:63-84. *)
Definition AnalogInteraction (dur : R) (s : support) (ap : bool) : tree := TInt dur s ap.
(** operations/analog.py:112-152 for numbers.  [None]: ValueError. *)
Definition AnalogRot (dur omega delta phase : R) (s : support) (ap : bool) : option tree :=
  if Req_EM_T omega 0 then if Req_EM_T delta 0 then None else Some (TRot dur omega delta phase s ap) else Some (TRot dur omega delta phase s ap).
(** operations/analog.py:155-177. *)
Definition analog_rot (angle : R) (s : support) (phase : R) (ap : bool) : tree := TRot (angle / PI * 1000) PI 0 phase s ap.
(** operations/analog.py:180-198, 201-217, 220-240. *)
Definition AnalogRX (angle : R) (s : support) (ap : bool) : tree := analog_rot angle s 0 ap.
Definition AnalogRY (angle : R) (s : support) (ap : bool) : tree := analog_rot angle s (- PI / 2) ap.
Definition AnalogRZ (angle : R) (s : support) (ap : bool) : tree := TRot (angle / PI * 1000) 0 PI 0 s ap.

Section Translate.
  Variable set_iter : list nat -> list nat.
  (** blocks/utils.py:342-347; only consulted for a custom interaction function. *)
  Variable is_hamiltonian : block -> bool.
  (** analog/constants.py:7-59 [C6_DICT]; [None]: KeyError. *)
  Variable c6_dict : nat -> option R.

  Definition num (x : R) : expr := ECst (RtoC x).

  (** hamiltonian_terms.py:16-50.  A division by a zero distance gives inf in torch and 0 here. *)
  Definition rydberg_interaction_hamiltonian (d : device) (r : M_Register.register) : option block :=
    let dists := map snd (M_Register.distances r) in
    obind (match d_coupling d with
           | NN => obind (c6_dict (d_level d)) (fun c6 => Some (map (fun x => num (c6 / x ^ 6)) dists))
           | XY => Some (map (fun x => num (d_coeff_xy d / x ^ 3)) dists)
           end) (fun strengths =>
    hamiltonian_factory set_iter is_hamiltonian (HReg (M_Register.support r) [])
      (Some (match d_coupling d with NN => INN | XY => IXY end)) None (SArray strengths) SNone None true).

  (** hamiltonian_terms.py:53-78. *)
  Definition rydberg_drive_hamiltonian (omega delta phase : R) (s : support) (r : M_Register.register) : block :=
    let qubit_support := match s with SGlobal => M_Register.support r | SLocal l => l end in
    let x_terms := op_scale (BAdd (map (fun i => op_scale (BPrim PX i) (num (cos phase))) qubit_support)) (num (omega / 2)) in
    let y_terms := op_scale (BAdd (map (fun i => op_scale (BPrim PY i) (num (sin phase))) qubit_support)) (num (omega / 2)) in
    let n_terms := op_scale (BAdd (map (fun i => BPrim (PN true) i) qubit_support)) (num delta) in
    op_sub (op_sub x_terms y_terms) n_terms.

  (** hamiltonian_terms.py:81-109.  [None]: KeyError, when the pattern has no entry for a qubit. *)
  Definition rydberg_pattern_hamiltonian (p : M_Addressing.pattern) (r : M_Register.register) : option block :=
    let support := seq 0 (length r) in
    obind (osequence (map (fun i =>
      obind (M_Addressing.rget (M_Addressing.p_weights_amp p) i) (fun w =>
      obind (M_Addressing.rget (M_Addressing.p_local_amp p) i) (fun l =>
      Some (op_scale (op_scale (BPrim PX i) (num w)) (num l))))) support)) (fun xs =>
    let p_amp_terms := op_scale (BAdd xs) (num (1 / 2 * M_Addressing.p_amp p * M_Addressing.p_global_amp p)) in
    obind (osequence (map (fun i =>
      obind (M_Addressing.rget (M_Addressing.p_weights_det p) i) (fun w =>
      obind (M_Addressing.rget (M_Addressing.p_local_det p) i) (fun l =>
      Some (op_scale (op_scale (op_scale (op_sub (BPrim PI_ i) (BPrim PZ i)) (num (1 / 2))) (num w)) (num l))))) support)) (fun zs =>
    let p_det_terms := op_scale (BAdd zs) (num (- M_Addressing.p_det p * M_Addressing.p_global_det p)) in
    Some (op_add p_amp_terms p_det_terms))).

  (** parse_analog.py:81-83 and 73-76: [h_int], and [h_addr] on request. *)
  Definition background (h_int : block) (h_addr : option block) (ap : bool) : block :=
    match h_addr with Some a => if ap then op_iadd h_int a else h_int | None => h_int end.
  (** parse_analog.py:66-78. *)
  Definition build_rot_ham_evo (h_int : block) (h_addr : option block) (ap : bool) (dur : R) (h_drive : block) : block :=
    BEvo (op_iadd (background h_int h_addr ap) h_drive) (num (dur / 1000)).

  Section Leaf.
    Variable r : M_Register.register.
    Variable h_int : block.
    Variable h_addr : option block.
    (** parse_analog.py:99-101 and 109-111. *)
    Definition rotation (b : tree) : list block :=
      match b with
      | TRot dur om de ph s ap => [build_rot_ham_evo h_int h_addr ap dur (rydberg_drive_hamiltonian om de ph s r)]
      | _ => []
      end.
    (** apply_fn.py:17-43 with parse_analog.py:81-117.  [None]: the exception raised by an AnalogKron without rotation
        (UnboundLocalError) and by [kron] when the parts overlap. *)
    Fixpoint translate (t : tree) : option block :=
      match t with
      | TInt dur _ ap => Some (BEvo (background h_int h_addr ap) (num (dur / 1000)))
      | TRot dur om de ph s ap => Some (build_rot_ham_evo h_int h_addr ap dur (rydberg_drive_hamiltonian om de ph s r))
      | TAKron bs => match flat_map rotation bs with [] => None | ops => Some (BChain ops) end
      | TLeaf b => Some b
      | TAChain bs | TChain bs => option_map BChain (osequence (map translate bs))
      | TKron bs => obind (osequence (map translate bs)) (mk_kron set_iter)
      | TAdd bs => option_map BAdd (osequence (map translate bs))
      end.
  End Leaf.

  (** parse_analog.py:21-63 on a block: unchanged without a device, translated with one. *)
  Inductive outcome := Unchanged (t : tree) | Translated (b : block).
  Definition add_background_hamiltonian (dev : option device) (r : M_Register.register) (t : tree) : option outcome :=
    match dev with
    | None => Some (Unchanged t)
    | Some d =>
        obind (rydberg_interaction_hamiltonian d r) (fun h_int =>
        obind (match d_pattern d with None => Some None | Some p => option_map Some (rydberg_pattern_hamiltonian p r) end) (fun h_addr =>
        option_map Translated (translate r h_int h_addr t)))
    end.
End Translate.
