(** Model of QNN, qadence/ml_tools/models.py:84-104 and 107-461, on top of the model of QuantumModel (M_Model): the inputs given to the
    constructor, the columns of an input tensor, and the calls that are handed on to QuantumModel.
    Simplifications: a tensor with two or more dimensions enters only through its slices values[:, j]; sympy.symbols makes one symbol with the
    given name (no blanks, commas or ranges); the differentiation of the inputs is in M_Derivative; from_configs and the printed form are left out. *)
From Coq Require Import String List Arith Bool.
From Verif Require Import M_Trainable M_Embedding M_Model.
Import ListNotations.
Open Scope string_scope.
Open Scope list_scope.

(** A symbol in the list of inputs: its name, and the parameter object it is, if any. *)
Record input := Input { i_name : string; i_object : option nat }.
(** What the user writes in the list: a string or a symbol. *)
Inductive written := Text (s : string) | Symbol (i : input).
(** models.py:180: sympy.symbols(x) if isinstance(x, str) else x. *)
Definition as_symbol (w : written) : input := match w with Text s => Input s None | Symbol i => i end.

Section Format.
  Variable T : Type.
  (** == on symbols. *)
  Variable eqI : input -> input -> bool.
  (** What is passed as values: None, a dictionary, a tensor of no, one, or more dimensions. *)
  Inductive values := VNone | VDict (d : inputs_t T) | VScalar | VVector (t : T) | VColumns (columns : list T).
  (** list.index *)
  Fixpoint index (l : list input) (x : input) : nat := match l with [] => 0 | y :: r => if eqI y x then 0 else S (index r x) end.
  (** models.py:84-104.  The outer option is ValueError or IndexError; the inner one is None passed on. *)
  Definition from_columns (inputs : list input) (columns : list T) : option (option (inputs_t T)) :=
    if Nat.eqb (length columns) (length inputs) then
      let entry := fun fparam => match nth_error columns (index inputs fparam) with Some c => [(i_name fparam, c)] | None => [] end in
      Some (Some (Flat (update [] (flat_map entry inputs))))
    else None.
  Definition format_to_dict (inputs : list input) (v : values) : option (option (inputs_t T)) :=
    match v with
    | VNone => Some None
    | VDict d => Some (Some d)
    | VScalar => None
    | VVector t => from_columns inputs [t]
    | VColumns columns => from_columns inputs columns
    end.
End Format.
Arguments VNone {T}. Arguments VDict {T}. Arguments VScalar {T}. Arguments VVector {T}. Arguments VColumns {T}.

Section Qnn.
  (** As in M_Model. *)
  Variables X Noise Meas Mit Obs Args Res : Type.
  Notation tensor := (tensor X).
  Variable eqE : forall a b : pexpr, {a = b} + {a <> b}.
  Variable str_of hash_of : pexpr -> string.
  Variable fn : pexpr -> sdict tensor -> tensor.
  Variable reshape expand : tensor -> tensor.
  Variable one : tensor.
  Variable number : pexpr -> X.
  Variable initial : nat -> X.
  Variable is_time : nat -> bool.
  Variable ustr : nat -> string.
  Variable uniqE : list pexpr -> list pexpr.
  Variable uniqS : list (symbol tensor) -> list (symbol tensor).
  Variable parameter_dict : sdict tensor -> sdict tensor.
  Variable use_gate_params : bool.
  Variable b_run : inputs_t tensor -> Args -> Res.
  Variable b_sample : inputs_t tensor -> option Noise -> option Mit -> Args -> Res.
  Variable b_expectation : option Obs -> inputs_t tensor -> option Meas -> option Noise -> option Mit -> Args -> Res.
  Variable circuit_block : tblock.
  Variable observable : option (list tblock).
  Variable measurement : option Meas.
  Variable eqI : input -> input -> bool.
  Notation call := (call X Noise Meas Mit Obs Args).
  Notation model := (model X Noise).

  (** models.py:136-212: the parameters of QuantumModel and the list of inputs; the mitigation of the QuantumModel stays None (lines 168-176). *)
  Record qnn := Qnn { q_model : model; q_inputs : list input }.
  Definition new_qnn (h : heap) (noise : option Noise) (inputs : option (list written)) : option qnn :=
    let m := new_model X Noise str_of hash_of number initial is_time ustr uniqE uniqS parameter_dict circuit_block observable h noise in
    match observable with
    | None => None
    | Some _ =>
      match inputs with
      | Some l => if Nat.eqb (in_features X Noise m) (length l) then Some (Qnn m (map as_symbol l)) else None
      | None => if Nat.leb (in_features X Noise m) 1 then Some (Qnn m (map (fun k => Input k None) (m_inputs X Noise m))) else None
      end
    end.

  Inductive qcall :=
  | QForward (v : values tensor) (meas : option Meas) (noise : option Noise) (a : Args)
  | QRun (v : values tensor) (a : Args)
  | QSample (v : values tensor) (noise : option Noise) (mit : option Mit) (a : Args)
  | QExpectation (v : values tensor) (obs : option Obs) (meas : option Meas) (noise : option Noise) (mit : option Mit) (a : Args)
  | QResetVparams (vs : list X)
  | QOptimise (f : string -> X -> X)
  | QSetAsVariational (names : list string)
  | QSetAsFixed (names : list string).
  (** model.py:345-346 and models.py:446-447: None stands for no values. *)
  Definition or_empty (o : option (option (inputs_t tensor))) : option (inputs_t tensor) :=
    match o with Some (Some d) => Some d | Some None => Some (Flat []) | None => None end.
  (** models.py:436-458: the observable and the mitigation are not passed on. *)
  Definition q_expectation (q : qnn) (v : values tensor) (obs : option Obs) (meas : option Meas) (noise : option Noise) (mit : option Mit) (a : Args) : option call :=
    option_map (fun d => Expectation X Noise Meas Mit Obs Args d None (default meas measurement) (default noise (m_noise X Noise (q_model q))) None a) (or_empty (format_to_dict tensor eqI (q_inputs q) v)).
  (** The call of QuantumModel that a call of a QNN makes; [None] is an exception before that. *)
  Definition handed_on (q : qnn) (c : qcall) : option call :=
    match c with
    (** models.py:369-404. *)
    | QForward v meas noise a => q_expectation q v None meas noise None a
    (** models.py:406-416. *)
    | QRun v a => option_map (fun d => Run X Noise Meas Mit Obs Args d a) (or_empty (format_to_dict tensor eqI (q_inputs q) v))
    (** models.py:418-434: None as values is not replaced and raises TypeError in the embedding. *)
    | QSample v noise mit a => match format_to_dict tensor eqI (q_inputs q) v with Some (Some d) => Some (Sample X Noise Meas Mit Obs Args d noise mit a) | _ => None end
    | QExpectation v obs meas noise mit a => q_expectation q v obs meas noise mit a
    (** Inherited. *)
    | QResetVparams vs => Some (ResetVparams X Noise Meas Mit Obs Args vs)
    | QOptimise f => Some (Optimise X Noise Meas Mit Obs Args f)
    | QSetAsVariational names => Some (SetAsVariational X Noise Meas Mit Obs Args names)
    | QSetAsFixed names => Some (SetAsFixed X Noise Meas Mit Obs Args names)
    end.
  Definition qstep (q : qnn) (c : qcall) : qnn * outcome Res :=
    match handed_on q c with
    | None => (q, Raised Res)
    | Some c' => let r := step X Noise Meas Mit Obs Args Res eqE str_of hash_of fn reshape expand one number initial is_time ustr uniqE uniqS parameter_dict use_gate_params b_run b_sample b_expectation circuit_block observable measurement None (q_model q) c' in
                 (Qnn (fst r) (q_inputs q), snd r)
    end.
  Definition qexec (q : qnn) (cs : list qcall) : qnn := fold_left (fun q c => fst (qstep q c)) cs q.
End Qnn.
