(** Model of the translation of blocks to pulses: qadence/backends/pulser/pulses.py, make_sequence in qadence/backends/pulser/backend.py:56-82 and
    qadence/backends/pulser/devices.py.  A Pulser sequence is the list of the calls made on it; what Pulser does with them, including its own checks of the
    limits of a device, is not modelled.  Numbers are real numbers; a waveform is a list of segments (duration in ns, first and last value in rad/us).  A value that is
    not a number becomes a variable of the sequence, named by its uuid, and is here the real number that an assignment gives to it.  The computation of the eigenvalues of a rotation, the
    warnings and the creation of the Pulser register are left out.  [None] stands for a raised exception. *)
From Coq Require Import String Reals List Arith Bool.
From Verif Require Import M_Tensor M_Transpile M_Waveforms.
Import ListNotations.
Open Scope R_scope.

(** A parameter of a block: a number, or an expression with its uuid. *)
Inductive pparam := Num (x : R) | Sym (uuid : string).
(** qubit_support.py: global, or a tuple of qubits. *)
Inductive psupport := Global | Local (qs : list nat).
Inductive axis := AX | AY | AZ.
(** The blocks add_pulses distinguishes (pulses.py:117-189).  [analog]: an AnalogComposite; otherwise a CompositeBlock. *)
Inductive pblock :=
| PInteraction (duration : pparam) (s : psupport)
| PRotation (alpha omega phase delta : pparam) (s : psupport)
| PEntanglement (duration : pparam) (s : psupport)
| PDigital (a : axis) (angle : pparam) (q : nat)
| PComposite (analog : bool) (l : list pblock)
| POther (qs : list nat).

Definition segment := (R * (R * R))%type.
Record pulse := Pulse { amplitude : list segment; detuning : list segment; phase : R }.
Inductive channel_name := GLOBAL_CHANNEL | LOCAL_CHANNEL | QUBIT_CHANNEL (i : nat).
Inductive protocol := WaitForAll | NoDelay.
(** The calls on a sequence. *)
Inductive event :=
| Declare (c : channel_name) (is_global : bool)
| Variable_ (uuid : string)
| Target (qs : list nat) (c : channel_name)
| Add (p : pulse) (c : channel_name) (pr : protocol).
Record channel := Channel { is_global : bool; clock_period : R; min_duration : R; max_amp : R; max_abs_detuning : R }.
Record configuration := Configuration { amplitude_local : option R; amplitude_global : option R; config_detuning : option R }.
Definition or_else (o : option R) (d : R) : R := match o with Some x => x | None => d end.

Definition square (w : R * R) : list segment := [(fst w, (snd w, snd w))].
(** ConstantWaveform of Pulser. *)
Definition constant (d v : R) : list segment := [(d, (v, v))].

Section Pulses.
  (** The number of tests allowed to the loop of SquareWaveform.from_area, minus one. *)
  Variable fuel : nat.
  (** The values of the variables. *)
  Variable rho : string -> R.

  (** pulses.py:193-232. *)
  Definition analog_rot_pulse (alpha omega ph det : R) (ch : channel) (cf : configuration) : option pulse :=
    let amp := or_else (if is_global ch then amplitude_global cf else amplitude_local cf) omega in
    let d := or_else (config_detuning cf) det in
    let norm := sqrt (omega ^ 2 + det ^ 2) in
    if Req_EM_T norm 0 then None
    else
      let duration := 1000 * Rabs alpha / norm in
      Some (Pulse (square (from_duration duration amp (clock_period ch) (min_duration ch))) (square (from_duration duration d (clock_period ch) (min_duration ch))) (Rabs ph)).
  (** pulses.py:235-258. *)
  Definition entangle_pulse (duration : R) (ch : channel) (cf : configuration) : option pulse :=
    let amp := or_else (amplitude_global cf) (max_amp ch) in
    let clock := clock_period ch in
    let delay := constant (clock * np_ceil (duration / clock)) 0 in
    option_map (fun half => Pulse (square half ++ delay) ((fst half, (0, PI)) :: delay) (PI / 2)) (from_area (S fuel) (PI / 2) amp clock (min_duration ch)).
  (** pulses.py:261-279; Pulse.ConstantDetuning has the duration of the amplitude. *)
  Definition digital_xy_rot_pulse (angle ph : R) (ch : channel) (cf : configuration) : option pulse :=
    let amp := or_else (amplitude_local cf) (max_amp ch) in
    option_map (fun w => Pulse (square w) (constant (fst w) 0) ph) (from_area (S fuel) (Rabs angle) amp (clock_period ch) (min_duration ch)).
  (** pulses.py:282-312. *)
  Definition digital_z_rot_pulse (angle ph : R) (ch : channel) (cf : configuration) : option pulse :=
    let d := or_else (config_detuning cf) (max_abs_detuning ch) in
    if Req_EM_T d 0 then None
    else
      let duration := 1000 * Rabs angle / d in
      Some (Pulse (square (from_duration duration 0 (clock_period ch) (min_duration ch))) (square (from_duration duration d (clock_period ch) (min_duration ch))) (Rabs ph)).

  (** pulses.py:128, 149-152, 169, 176: a number is used as it is, an expression is declared as a variable. *)
  Definition declare (p : pparam) : list event := match p with Num _ => [] | Sym u => [Variable_ u] end.
  Definition value (p : pparam) : R := match p with Num x => x | Sym u => rho u end.

  Variables (local_channel global_channel : channel) (cf : configuration) (n_qubits : nat).
  (** The interaction of the device is the Ising interaction of neutral atoms. *)
  Variable nn : bool.

  (** pulses.py:107-109: the support whose first element is looked at; composite.py:30-37 and blocks/analog.py:218-219 for composites, which have no support when no part has one. *)
  Fixpoint has_support (b : pblock) : bool :=
    match b with
    | PInteraction _ s | PRotation _ _ _ _ s | PEntanglement _ s => match s with Global => true | Local qs => negb (Nat.eqb (length qs) 0) end
    | PDigital _ _ _ => true
    | PComposite _ l => existsb has_support l
    | POther qs => negb (Nat.eqb (length qs) 0)
    end.
  Definition is_analog (b : pblock) : bool :=
    match b with PInteraction _ _ | PRotation _ _ _ _ _ | PEntanglement _ _ | PComposite true _ => true | _ => false end.
  (** The parts of a composite in order; the first failure stops. *)
  Definition in_order (l : list (option (list event))) : option (list event) := option_map (@concat event) (osequence l).

  (** pulses.py:94-190. *)
  Fixpoint add_pulses (b : pblock) : option (list event) :=
    if negb (has_support b) then None
    else if is_analog b && negb nn then None
    else
      match b with
      | PInteraction t Global => Some (declare t ++ [Add (Pulse (constant (value t) 0) (constant (value t) 0) 0) GLOBAL_CHANNEL WaitForAll])
      | PInteraction _ (Local qs) => if forallb (fun q => Nat.ltb q n_qubits) qs then Some [] else None
      | PRotation a w p d s =>
          let decls := declare a ++ declare w ++ declare p ++ declare d in
          match s with
          | Global => option_map (fun x => decls ++ [Add x GLOBAL_CHANNEL WaitForAll]) (analog_rot_pulse (value a) (value w) (value p) (value d) global_channel cf)
          | Local qs => option_map (fun x => decls ++ [Target qs LOCAL_CHANNEL; Add x LOCAL_CHANNEL WaitForAll]) (analog_rot_pulse (value a) (value w) (value p) (value d) local_channel cf)
          end
      | PEntanglement t _ => option_map (fun x => declare t ++ [Add x GLOBAL_CHANNEL WaitForAll]) (entangle_pulse (value t) global_channel cf)
      | PDigital ax a q =>
          option_map (fun x => declare a ++ [Target [q] LOCAL_CHANNEL; Add x LOCAL_CHANNEL WaitForAll])
            (match ax with
             | AX => digital_xy_rot_pulse (value a) 0 local_channel cf
             | AY => digital_xy_rot_pulse (value a) (PI / 2) local_channel cf
             | AZ => digital_z_rot_pulse (value a) (PI / 2) local_channel cf
             end)
      | PComposite _ l => in_order (map add_pulses l)
      | POther _ => None
      end.
End Pulses.

(** pulses.py:50-91: an addressing pattern; a weight that is not a number is [None].  The second element of a weight is its local constraint. *)
Record pattern := Pattern { p_amp : R; p_det : R; weights_amp : list (option R * R); weights_det : list (option R * R); global_constr_amp : R; global_constr_det : R }.
Definition qubit_weight (w : list (option R * R)) (i : nat) : option R := obind (nth_error w i) (fun wl => option_map (fun x => x * snd wl) (fst wl)).
Definition add_addressing_pattern (total_duration : R) (n_qubits : nat) (pt : pattern) : option (list event) :=
  let declared := map (fun i => Declare (QUBIT_CHANNEL i) false) (seq 0 n_qubits) in
  option_map (fun evs => declared ++ concat evs)
    (osequence (map (fun i =>
       obind (qubit_weight (weights_amp pt) i) (fun w_amp =>
       obind (qubit_weight (weights_det pt) i) (fun w_det =>
       Some [Target [i] (QUBIT_CHANNEL i);
             Add (Pulse (constant total_duration (global_constr_amp pt * p_amp pt * w_amp)) (constant total_duration (global_constr_det pt * p_det pt * w_det)) 0) (QUBIT_CHANNEL i) NoDelay])))
     (seq 0 n_qubits))).

(** devices.py:11-26 and 30-72; the default clock period and minimal duration of a Pulser channel are 1. *)
Inductive device_type := Idealized | Realistic | OtherDevice.
Definition device_channels (t : device_type) (max_abs_detuning max_amp : R) : option (channel * channel) :=
  match t with
  | Idealized => Some (Channel true 1 1 max_amp max_abs_detuning, Channel false 1 1 max_amp max_abs_detuning)
  | Realistic => Some (Channel true 4 16 (max_amp * (1 / 2)) max_abs_detuning, Channel false 4 16 max_amp max_abs_detuning)
  | OtherDevice => None
  end.
(** backend.py:56-82. *)
Definition make_sequence (fuel : nat) (rho : string -> R) (t : device_type) (max_abs_detuning max_amp : R) (nn : bool) (n_qubits : nat) (cf : configuration) (b : pblock) : option (list event) :=
  obind (device_channels t max_abs_detuning max_amp) (fun ch => let '(global_channel, local_channel) := ch in
  option_map (fun evs => Declare GLOBAL_CHANNEL true :: Declare LOCAL_CHANNEL false :: evs) (add_pulses fuel rho local_channel global_channel cf n_qubits nn b)).
(** operations/analog.py:150-242, the parameters of the rotations by their angle, when it is a number. *)
Definition AnalogRX (angle : R) (s : psupport) : pblock := PRotation (Num angle) (Num PI) (Num 0) (Num 0) s.
Definition AnalogRY (angle : R) (s : psupport) : pblock := PRotation (Num angle) (Num PI) (Num (- PI / 2)) (Num 0) s.
Definition AnalogRZ (angle : R) (s : psupport) : pblock := PRotation (Num angle) (Num 0) (Num 0) (Num PI) s.
(** operations/analog.py:111-147. *)
Definition AnalogRot (duration omega delta ph : R) (s : psupport) : option pblock :=
  if Req_EM_T omega 0 then if Req_EM_T delta 0 then None else Some (PRotation (Num (duration * sqrt (omega ^ 2 + delta ^ 2) / 1000)) (Num omega) (Num ph) (Num delta) s)
  else Some (PRotation (Num (duration * sqrt (omega ^ 2 + delta ^ 2) / 1000)) (Num omega) (Num ph) (Num delta) s).
