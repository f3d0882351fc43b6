(** Model of the engines that wrap a backend: qadence/engines/differentiable_backend.py, the classes of the same name in
    qadence/engines/torch/differentiable_backend.py and qadence/engines/jax/differentiable_backend.py, and the part of
    DifferentiableExpectation (qadence/engines/torch/differentiable_expectation.py, qadence/engines/jax/differentiable_expectation.py) that
    decides what is computed and with which arguments; Backend.convert of qadence/backend.py as far as it refuses circuits and observables.
    Gradients are in M_PSR.v and M_Gradient.v.  The wrapped backend, the measurement protocols and pyqtorch's adjoint expectation are
    functions given as arguments.  A table of expectation values is a list of rows, one for each element of the batch.  An exception is
    [None]. *)
From Coq Require Import String Reals List Arith Bool.
From Coquelicot Require Import Coquelicot.
From Coq Require Import List.
From Verif Require Import S_Ops M_Block M_Tensor M_Transpile M_PSR M_Gradient.
Import ListNotations.

(** types.py:183-191 [DiffMode], and other values. *)
Inductive mode := AD | ADJOINT | GPSR | OtherMode.
Inductive engine := Torch | Jax.
Definition table := list (list R).

Section Engine.
  (** Backends, converted circuits and observables, the user's circuits and observables, values of parameters, states, measurement protocols,
      noise, mitigations, endiannesses, histograms. *)
  Variables (Backend Circ Obs ACirc AObs Val State Meas Noise Mit Endian Counts : Type).
  Variable Big : Endian.
  (** The default value [PyQBackend()] of the argument [backend] of the measurement functions (measurements/tomography.py:23,
      measurements/shadow.py:292). *)
  Variable default_backend : Backend.
  (** ConvertedCircuit.original and ConvertedObservable.original; the blocks of their field [abstract]. *)
  Variables (c_original : Circ -> ACirc) (o_original : Obs -> AObs) (c_block : Circ -> block) (o_block : Obs -> block).
  Definition Dict := list (string * Val).
  Fixpoint dget (d : Dict) (k : string) : option Val :=
    match d with [] => None | (k', v) :: r => if String.eqb k' k then Some v else dget r k end.

  (** Backend.expectation, Backend.sample, Backend.run. *)
  Variable expectation_fn : Backend -> Circ -> list Obs -> Dict -> option State -> option Noise -> option Mit -> Endian -> option table.
  Variable sample_fn : Backend -> Circ -> Dict -> nat -> option State -> option Noise -> option Mit -> Endian -> option Counts.
  Variable run_fn : Backend -> Circ -> Dict -> option State -> Endian -> option State.
  (** The function of a measurement protocol with its options (measurements/protocols.py:23-29). *)
  Variable measure_fn : Meas -> ACirc -> list AObs -> Dict -> option State -> Backend -> option Noise -> Endian -> option table.
  (** AdjointExpectation.apply; circuit.native.init_state; validate_state and pyqify (backends/utils.py:112-135, 154-166) for the qubits of the
      circuit; the batch size of a state; infer_batchsize (169-184). *)
  Variable adjoint_fn : Circ -> State -> Obs -> Dict -> option (list R).
  Variable init_state : Circ -> nat -> State.
  Variable prepare_state : Circ -> State -> option State.
  Variable state_batch : State -> nat.
  Variable infer_batchsize : Dict -> nat.
  (** torch.linalg.eigvals, torch.linalg.solve and the user's [shift_prefac], as in M_Gradient.v. *)
  Variable eigvals : block -> list R.
  Variable linalg_solve : list (list R) -> list R -> option (list R).
  Variable shift_prefac : option R.

  Inductive obs_arg := OneObs (o : Obs) | ObsList (l : list Obs).
  Definition as_list (o : obs_arg) : list Obs := match o with OneObs o => [o] | ObsList l => l end.
  Record settings := { state : option State; measurement : option Meas; noise : option Noise; mitigation : option Mit; endianness : Endian }.

  (** torch/differentiable_expectation.py:103-132 [ad]. *)
  Definition ad (be : Backend) (c : Circ) (os : list Obs) (d : Dict) (s : settings) : option table :=
    match measurement s with
    | Some m => measure_fn m (c_original c) (map o_original os) d (state s) be (noise s) (endianness s)
    | None => expectation_fn be c os d (state s) (noise s) (mitigation s) (endianness s)
    end.
  (** torch/differentiable_expectation.py:134-167 [adjoint]; reshape raises when the sizes differ, vstack when there is nothing to stack. *)
  Definition adjoint (c : Circ) (os : list Obs) (d : Dict) (s : settings) : option table :=
    let values_batch_size := infer_batchsize d in
    obind (match state s with None => Some (init_state c values_batch_size) | Some st => prepare_state c st end) (fun st =>
    let batch_size := max values_batch_size (state_batch st) in
    obind (osequence (map (fun o => obind (adjoint_fn c st o d) (fun l =>
             if Nat.eqb (length l) batch_size then Some (map (fun x => [x]) l) else None)) os)) (fun expectation_list =>
    match expectation_list with [] => None | _ => Some (concat expectation_list) end)).
  (** torch/differentiable_expectation.py:203: KeyError when a value is missing. *)
  Definition restrict (d : Dict) (keys : list string) : option Dict := osequence (map (fun k => option_map (fun v => (k, v)) (dget d k)) keys).
  (** torch/differentiable_expectation.py:169-205 [psr], forward pass (28-60).  The measurement function gets no backend. *)
  Definition psr (be : Backend) (c : Circ) (os : list Obs) (d : Dict) (s : settings) : option table :=
    let expectation := match measurement s with
      | Some m => fun d' => measure_fn m (c_original c) (map o_original os) d' (state s) default_backend (noise s) (endianness s)
      | None => fun d' => expectation_fn be c os d' (state s) (noise s) (mitigation s) (endianness s)
      end in
    obind (construct_rules eigvals linalg_solve shift_prefac (c_block c) (map o_block os)) (fun rules =>
    obind (restrict d (map fst rules)) expectation).
  (** torch/differentiable_backend.py:42-88: UnboundLocalError for another mode. *)
  Definition torch_expectation (m : mode) (be : Backend) (c : Circ) (o : obs_arg) (d : Dict) (s : settings) : option table :=
    let os := as_list o in
    match m with
    | AD => ad be c os d s
    | ADJOINT => adjoint c os d s
    | GPSR => psr be c os d s
    | OtherMode => None
    end.

  (** jax/differentiable_expectation.py:38-58, 95: the value computed by [psr]. *)
  Definition jax_psr_value (be : Backend) (c : Circ) (os : list Obs) (d : Dict) (s : settings) : option table :=
    obind (uuid_to_eigen eigvals false (c_block c)) (fun uuid_to_eigs =>
    obind (restrict d (map fst uuid_to_eigs)) (fun _ =>
    expectation_fn be c os d (state s) None None Big)).
  (** jax/differentiable_backend.py:60-79. *)
  Definition jax_expectation (m : mode) (be : Backend) (c : Circ) (o : obs_arg) (d : Dict) (s : settings) : option table :=
    let os := as_list o in
    match m with
    | AD => expectation_fn be c os d (state s) None None Big
    | _ => jax_psr_value be c os d s
    end.
  Definition engine_expectation (e : engine) := match e with Torch => torch_expectation | Jax => jax_expectation end.

  (** engines/differentiable_backend.py:42-89: for both engines and all modes. *)
  Definition engine_sample (e : engine) (m : mode) (be : Backend) (c : Circ) (d : Dict) (n_shots : nat) (s : settings) : option Counts :=
    sample_fn be c d n_shots (state s) (noise s) (mitigation s) (endianness s).
  Definition engine_run (e : engine) (m : mode) (be : Backend) (c : Circ) (d : Dict) (s : settings) : option State :=
    run_fn be c d (state s) (endianness s).

  (** * Conversion *)
  (** Backend.circuit and Backend.observable; numbers of qubits; whether a parametrised block of the circuit is not a PrimitiveBlock;
      AbstractBlock.is_parametric; whether the observable consists of Pauli operators (backend.py:206-216). *)
  Variable be_circuit : Backend -> ACirc -> option Circ.
  Variable be_observable : Backend -> AObs -> nat -> option Obs.
  Variables (c_qubits : ACirc -> nat) (o_qubits : AObs -> nat) (non_primitive : ACirc -> bool) (is_parametric is_hamiltonian : AObs -> bool).
  (** engines/differentiable_backend.py:124-134. *)
  Definition engine_circuit (m : mode) (be : Backend) (c : ACirc) : option Circ :=
    match m with
    | GPSR => if non_primitive c then None else be_circuit be c
    | _ => be_circuit be c
    end.
  (** engines/differentiable_backend.py:136-148 for one observable. *)
  Definition engine_observable (m : mode) (be : Backend) (o : AObs) (n_qubits : nat) : option Obs :=
    match m with
    | AD => be_observable be o n_qubits
    | _ => if is_parametric o then None else be_observable be o n_qubits
    end.
  (** backend.py:217-232. *)
  Definition be_convert (be : Backend) (c : ACirc) (os : list AObs) : option (Circ * list Obs) :=
    obind (be_circuit be c) (fun conv_circ =>
    obind (osequence (map (fun o => if is_hamiltonian o then be_observable be o (max (c_qubits c) (o_qubits o)) else None) os)) (fun conv_obs =>
    Some (conv_circ, conv_obs))).
  (** engines/differentiable_backend.py:150-155: the backend's own. *)
  Definition engine_convert (m : mode) (be : Backend) (c : ACirc) (os : list AObs) : option (Circ * list Obs) := be_convert be c os.
End Engine.
