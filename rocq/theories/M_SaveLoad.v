(** Model of saving and loading a QuantumModel and a QNN: _to_dict, _from_dict and load_params_from_dict of qadence/model.py:463-582 and
    qadence/ml_tools/models.py:463-502, with _from_dict of qadence/measurements/protocols.py:35-38.
    Simplifications: blocks, the parameter objects and noise models come back as they were (C44 says when); parameters hold one number each, so copying
    never fails for its shape; backend, diff_mode and configuration are left out. *)
From Coq Require Import String List Arith Bool.
From Verif Require Import M_Trainable M_Embedding M_Model M_Qnn M_Derivative.
Import ListNotations.
Open Scope string_scope.
Open Scope list_scope.

(** measurements/protocols.py:15-38: a protocol and its options.  cls(d["protocol"], **d["options"]) passes every option as a keyword argument, where
    the constructor takes one argument called options; [None] is TypeError. *)
Definition meas (V : Type) : Type := string * sdict V.
Definition measurement_from {V} (as_options : V -> sdict V) (m : option (meas V)) : option (option (meas V)) :=
  match m with
  | None => Some None
  | Some (p, [(k, v)]) => if String.eqb k "options" then Some (Some (p, as_options v)) else None
  | Some _ => None
  end.

Section SaveLoad.
  (** As in M_Model; [V]: values of measurement options. *)
  Variables X Noise V : Type.
  Notation tensor := (tensor X).
  Variable str_of hash_of : pexpr -> string.
  Variable number : pexpr -> X.
  Variable initial : nat -> X.
  Variable is_time : nat -> bool.
  Variable ustr : nat -> string.
  Variable uniqE : list pexpr -> list pexpr.
  Variable uniqS : list (symbol tensor) -> list (symbol tensor).
  Variable parameter_dict : sdict tensor -> sdict tensor.
  Variable circuit_block : tblock.
  Variable as_options : V -> sdict V.
  Notation model := (model X Noise).

  (** The dictionary: parameter objects of the circuit and the observables, the observables ([None] is the empty dictionary), measurement, noise,
      the inputs of a QNN, and "param_dict". *)
  Record saved := Saved { s_objects : heap; s_observables : list (option tblock); s_measurement : option (meas V); s_noise : option Noise; s_inputs : list string; s_params : sdict tensor }.

  (** model.py:463-497. *)
  Definition to_dict (observable : option (list tblock)) (measurement : option (meas V)) (save_params : bool) (m : model) : saved :=
    Saved (m_heap X Noise m) (match observable with Some l => map (fun b => Some b) l | None => [None] end) measurement (m_noise X Noise m) []
          (if save_params then m_params X Noise m else []).
  (** serialization.py:312-364 and 173-180 on the empty dictionary: IndexError. *)
  Fixpoint observables_from (l : list (option tblock)) : option (list tblock) :=
    match l with
    | [] => Some []
    | Some b :: r => option_map (cons b) (observables_from r)
    | None :: _ => None
    end.
  (** A loaded model: its observables and measurement, and its state. *)
  Record loaded := Loaded { l_observables : list tblock; l_measurement : option (meas V); l_model : model }.
  (** model.py:499-543.  An exception in the constructor is logged, and then qm is not defined: [None]. *)
  Definition from_dict (as_torch : bool) (d : saved) : option loaded :=
    match observables_from (s_observables d), measurement_from as_options (s_measurement d) with
    | Some obs, Some me =>
      let m := new_model X Noise str_of hash_of number initial is_time ustr uniqE uniqS parameter_dict circuit_block (Some obs) (s_objects d) (s_noise d) in
      (* nn.Parameter(param): requires_grad is True *)
      Some (Loaded obs me (if as_torch then with_params X Noise m (update [] (map (fun kv => (fst kv, (fst (snd kv), true))) (s_params d))) else m))
    | _, _ => None
    end.

  (** model.py:545-582: set(...) - set(...) of the keys; copy_ replaces the value and keeps requires_grad. *)
  Definition copy_into (p : sdict tensor) (kv : string * tensor) : sdict tensor :=
    match get p (fst kv) with Some t => set p (fst kv) (fst (snd kv), snd t) | None => p end.
  Definition load_params_from_dict (m : model) (d : saved) (strict : bool) : option model :=
    let missing_keys := filter (fun kv => negb (has (s_params d) (fst kv))) (m_params X Noise m) in
    let unexpected_keys := filter (fun kv => negb (has (m_params X Noise m) (fst kv))) (s_params d) in
    if strict && negb (match missing_keys, unexpected_keys with [], [] => true | _, _ => false end) then None
    else Some (with_params X Noise m (fold_left copy_into (s_params d) (m_params X Noise m))).

  (** models.py:463-502: with the inputs; the mode of differentiation is not saved and the constructor's default is AD. *)
  Definition qnn_to_dict (observable : option (list tblock)) (measurement : option (meas V)) (save_params : bool) (q : qnn X Noise) (mode : input_diff_mode) : saved :=
    let d := to_dict observable measurement save_params (q_model X Noise q) in
    Saved (s_objects d) (s_observables d) (s_measurement d) (s_noise d) (map i_name (q_inputs X Noise q)) (s_params d).
  Definition qnn_from_dict (as_torch : bool) (d : saved) : option (loaded * list input * input_diff_mode) :=
    match observables_from (s_observables d) with
    | None => None
    | Some obs =>
      match measurement_from as_options (s_measurement d), new_qnn X Noise str_of hash_of number initial is_time ustr uniqE uniqS parameter_dict circuit_block (Some obs) (s_objects d) (s_noise d) (Some (map Text (s_inputs d))) with
      | Some me, Some q =>
        Some (Loaded obs me (if as_torch then with_params X Noise (q_model X Noise q) (update [] (map (fun kv => (fst kv, (fst (snd kv), true))) (s_params d))) else q_model X Noise q), q_inputs X Noise q, AD)
      | _, _ => None
      end
    end.
End SaveLoad.
