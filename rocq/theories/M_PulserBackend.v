(** Model of the execution of circuits by the Pulser backend: qadence/backends/pulser/backend.py:43-47 (_convert_init_state), 86-126 (simulate_sequence), 163-351 (Backend) and
    to_list_of_dicts in qadence/backends/utils.py:98-109.  A backend has two pieces of mutable state: the native sequence of a converted circuit and the simulation
    configuration.  A call gives its result and the state afterwards; a raised exception is [None].  Simplifications: parameter values are one-dimensional real tensors;
    one converted circuit; the simulator, the cloud, the observables and the inversion of the endianness are functions given to the model (so a random draw depends
    on what is sampled only); a sequence is described by the variables it declares, the values assigned to them, the addressing patterns added to it and whether
    it has been measured; Pulser refuses to change or measure a measured sequence, to declare the channels of a pattern twice and to build a sequence without the values of all its variables; building makes a
    copy.  Measurement and mitigation protocols are left out. *)
From Coq Require Import String Reals List Arith Bool.
From Coquelicot Require Import Coquelicot.
From Coq Require Import List.
From Verif Require Import M_Tensor M_Transpile M_Basis.
Import ListNotations.
Open Scope R_scope.

Definition dict := list (string * list R).
(** backends/utils.py:98-109: a tensor that has not the largest length is repeated, and a row of it is the tensor. *)
Definition to_rows (d : dict) : list dict :=
  match d with
  | [] => [[]]
  | _ =>
      let m := list_max (map (fun kv => length (snd kv)) d) in
      map (fun i => map (fun kv => (fst kv, if Nat.eqb (length (snd kv)) m then [nth i (snd kv) 0] else snd kv)) d) (seq 0 m)
  end.

Section PulserBackend.
  Variables Pattern SimConfig Counter Protocol : Type.
  Record sequence := Sequence { s_variables : list string; s_values : dict; s_patterns : list Pattern; s_measured : bool }.
  Record world := World { native : sequence; sim_config : option SimConfig }.
  Definition vec := list C.
  Definition dm := list (list C).

  (** The addressing pattern of the register, whether a cloud configuration is given, the kinds of noise that are analog. *)
  Variable device_pattern : option Pattern.
  Variable cloud : bool.
  Variable is_analog : Protocol -> bool.
  Variable make_sim_config : Protocol -> R -> SimConfig.
  (** The final state, density matrix and samples of the simulator; the samples of the cloud. *)
  Variable emulate : option SimConfig -> sequence -> option vec -> option vec.
  Variable emulate_dm : option SimConfig -> sequence -> option vec -> option dm.
  Variable emulate_sample : option SimConfig -> sequence -> option vec -> nat -> option Counter.
  Variable cloud_sample : sequence -> nat -> option Counter.
  Variable invert_vec : vec -> vec.
  Variable invert_dm : dm -> dm.
  Variable invert_counter : Counter -> Counter.

  (** backend.py:43-47: a batch of states. *)
  Definition convert_init_state (state : list vec) : option vec :=
    if Nat.ltb 1 (length state) then None else option_map (@rev C) (hd_error state).
  (** [state if state is None else _convert_init_state(state)] *)
  Definition start (state : option (list vec)) : option (option vec) := match state with None => Some None | Some s => option_map Some (convert_init_state s) end.

  (** Sequence.build, Sequence.measure and the declaration of channels. *)
  Definition build (s : sequence) (d : dict) : option sequence :=
    if forallb (fun v => existsb (fun kv => String.eqb (fst kv) v) d) (s_variables s) then Some (Sequence [] d (s_patterns s) (s_measured s)) else None.
  Definition measure (s : sequence) : option sequence := if s_measured s then None else Some (Sequence (s_variables s) (s_values s) (s_patterns s) true).
  Definition add_pattern (s : sequence) (p : Pattern) : option sequence :=
    if s_measured s then None else match s_patterns s with [] => Some (Sequence (s_variables s) (s_values s) [p] false) | _ => None end.

  (** backend.py:163-181: the sequence, and whether it is the native one itself. *)
  Definition assign_parameters (s : sequence) (d : dict) : option (sequence * bool) :=
    match d with
    | [] => match s_variables s with [] => Some (s, true) | _ => None end
    | _ => option_map (fun x => (x, false)) (build s (filter (fun kv => existsb (String.eqb (fst kv)) (s_variables s)) d))
    end.
  (** backend.py:204-208 and 302-306. *)
  Definition finish (s : sequence) : option sequence := obind (match device_pattern with None => Some s | Some p => add_pattern s p end) measure.
  Definition prepare (w : world) (d : dict) : option sequence * world :=
    match assign_parameters (native w) d with
    | None => (None, w)
    | Some (s, alias) =>
        match finish s with
        | None => (None, w)
        | Some s' => (Some s', if alias then World s' (sim_config w) else w)
        end
    end.
  (** The rows one after the other; the first exception stops. *)
  Fixpoint over_rows {A} (f : world -> dict -> option A * world) (w : world) (rows : list dict) : option (list A) * world :=
    match rows with
    | [] => (Some [], w)
    | d :: r =>
        match f w d with
        | (None, w') => (None, w')
        | (Some a, w') => let '(l, w'') := over_rows f w' r in (option_map (cons a) l, w'')
        end
    end.
  Definition lift {A B} (g : A -> B) (x : option A * world) : option B * world := (option_map g (fst x), snd x).

  (** backend.py:183-229, without noise. *)
  Definition run_row (st : option vec) (w : world) (d : dict) : option vec * world :=
    match prepare w d with
    | (None, w') => (None, w')
    | (Some s, w') => (option_map (@rev C) (emulate (sim_config w') s st), w')
    end.
  Definition run (w : world) (d : dict) (state : option (list vec)) (e : endian) : option (list vec) * world :=
    if cloud then (None, w)
    else match start state with
         | None => (None, w)
         | Some st => lift (fun l => match e with Big => l | Little => map invert_vec l end) (over_rows (run_row st) w (to_rows d))
         end.
  (** backend.py:232-282: the density matrices of one noise probability; np.flip reverses both axes. *)
  Definition noisy_row (st : option vec) (w : world) (d : dict) : option dm * world :=
    match assign_parameters (native w) d with
    | None => (None, w)
    | Some (s, _) => (option_map (fun m => rev (map (@rev C) m)) (emulate_dm (sim_config w) s st), w)
    end.
  Definition run_noisy_sim (p : Protocol) (d : dict) (st : option vec) (w : world) (prob : R) : option (list dm) * world :=
    over_rows (noisy_row st) (World (native w) (Some (make_sim_config p prob))) (to_rows d).
  Fixpoint over_probs (p : Protocol) (d : dict) (st : option vec) (w : world) (probs : list R) : option (list (list dm)) * world :=
    match probs with
    | [] => (Some [], w)
    | x :: r =>
        match run_noisy_sim p d st w x with
        | (None, w') => (None, w')
        | (Some a, w') => let '(l, w'') := over_probs p d st w' r in (option_map (cons a) l, w'')
        end
    end.
  (** The initial state is handed to the simulator as it is (for one state; its layout is left out). *)
  Definition run_noisy (w : world) (protocols : list Protocol) (probs : list R) (d : dict) (state : option vec) (e : endian) : option (list (list dm)) * world :=
    if cloud then (None, w)
    else match rev protocols with
         | [] => (None, w)
         | p :: _ =>
             if is_analog p then lift (fun l => match e with Big => l | Little => map (map invert_dm) l end) (over_probs p d state w probs) else (None, w)
         end.
  (** backend.py:284-319. *)
  Definition sample_row (st : option vec) (n_shots : nat) (w : world) (d : dict) : option Counter * world :=
    match prepare w d with
    | (None, w') => (None, w')
    | (Some s, w') => ((if cloud then cloud_sample s n_shots else emulate_sample (sim_config w') s st n_shots), w')
    end.
  Definition sample (w : world) (d : dict) (n_shots : nat) (state : option (list vec)) (e : endian) : option (list Counter) * world :=
    if Nat.ltb n_shots 1 then (None, w)
    else match start state with
         | None => (None, w)
         | Some st => lift (fun l => match e with Big => l | Little => map invert_counter l end) (over_rows (sample_row st n_shots) w (to_rows d))
         end.
  (** backend.py:321-351, without noise: the value of every observable in every state, by row. *)
  Variable Obs : Type.
  Variable observe : Obs -> vec -> option C.
  Definition expectation (w : world) (d : dict) (obs : list Obs) (state : option (list vec)) (e : endian) : option (list (list R)) * world :=
    match run w d state e with
    | (None, w') => (None, w')
    | (Some l, w') => (osequence (map (fun s => option_map (map fst) (osequence (map (fun o => observe o s) obs))) l), w')
    end.
End PulserBackend.
