(** Model of the state of a QuantumModel and of its methods, qadence/model.py:113-452, with Backend.convert, qadence/backend.py:188-253.
    The parameter objects of the circuit and of the observables are mutable and live in a heap (M_Trainable); the embedding is the one of
    M_Embedding.  The backend's run, sample and expectation are arguments: functions of the embedded parameters and the other arguments.
    Simplifications: constant matrices are treated as the other constants; parameters hold one number each. *)
From Coq Require Import String List Arith Bool.
From Verif Require Import M_Trainable M_Embedding.
Import ListNotations.
Open Scope string_scope.
Open Scope list_scope.

Section QuantumModel.
  (** The numbers, the noise models, the measurement and mitigation protocols, observables passed on the fly, the other arguments
      (state, endianness, number of shots), results. *)
  Variables X Noise Meas Mit Obs Args Res : Type.
  (** A tensor: its value and requires_grad. *)
  Definition tensor := (X * bool)%type.
  Definition requires_grad (t : tensor) : bool := snd t.

  (** Expressions: equality, printed form, hash, compiled function, value of a constant; the value of a parameter object; identifiers. *)
  Variable eqE : forall a b : pexpr, {a = b} + {a <> b}.
  Variable str_of hash_of : pexpr -> string.
  Variable fn : pexpr -> sdict tensor -> tensor.
  Variable reshape expand : tensor -> tensor.
  Variable one : tensor.
  Variable number : pexpr -> X.
  Variable initial : nat -> X.
  Variable is_time : nat -> bool.
  Variable ustr : nat -> string.
  (** list(set(.)) *)
  Variable uniqE : list pexpr -> list pexpr.
  Variable uniqS : list (symbol tensor) -> list (symbol tensor).
  (** torch.nn.ParameterDict made from a dictionary: the same entries, in the order torch chooses. *)
  Variable parameter_dict : sdict tensor -> sdict tensor.
  (** The backend. *)
  Variable use_gate_params : bool.
  Variable b_run : inputs_t tensor -> Args -> Res.
  Variable b_sample : inputs_t tensor -> option Noise -> option Mit -> Args -> Res.
  Variable b_expectation : option Obs -> inputs_t tensor -> option Meas -> option Noise -> option Mit -> Args -> Res.

  (** What the constructor is given (model.py:85-95). *)
  Variable circuit_block : tblock.
  Variable observable : option (list tblock).
  Variables (measurement : option Meas) (mitigation : option Mit).

  (** The symbols of an expression, read from the parameter objects. *)
  Definition symbol_of (h : heap) (o : nat) : symbol tensor := Sym (pname (h o)) (ptrain (h o)) (is_time o) (initial (pvalue (h o)), false).
  Definition free (h : heap) (e : pexpr) : list (symbol tensor) := map (symbol_of h) (free_symbols e).
  Definition is_number (e : pexpr) : bool := match free_symbols e with [] => true | _ => false end.
  Definition is_array (e : pexpr) : bool := false.
  Definition no_string (e : pexpr) : string := "".
  Definition uuids (b : tblock) : list (string * pexpr) := map (fun ue => (ustr (fst ue), snd ue)) (uuid_to_expression b []).
  (** embedding.py:171-188: trainable parameters require gradients, constants do not. *)
  Definition init_params (h : heap) (b : tblock) : sdict tensor :=
    initial_params pexpr tensor (free h) is_number is_array str_of hash_of no_string (fun e => (number e, false)) (fun e => (number e, false)) (fun v => (fst v, true)) uniqE uniqS (uuids b).
  Definition embedding_fn (h : heap) (b : tblock) (params : sdict tensor) (i : inputs_t tensor) : option (sdict tensor) :=
    if use_gate_params then embedding_gate pexpr tensor eqE (free h) is_number is_array str_of hash_of no_string fn reshape one uniqE (uuids b) params i
    else embedding_expr pexpr tensor eqE (free h) is_number is_array str_of hash_of no_string fn reshape expand one uniqE (uuids b) params i.

  Definition observables : list tblock := match observable with Some l => l | None => [] end.
  (** backend.py:213-232: the parameters of the circuit, updated with those of each observable. *)
  Definition converted_params (h : heap) : sdict tensor := fold_left (fun acc b => update acc (init_params h b)) observables (init_params h circuit_block).
  (** backend.py:234-251. *)
  Fixpoint embed_all (h : heap) (bs : list tblock) (params : sdict tensor) (i : inputs_t tensor) (acc : sdict tensor) : option (sdict tensor) :=
    match bs with
    | [] => Some acc
    | b :: r => match embedding_fn h b params i with Some d => embed_all h r params i (update acc d) | None => None end
    end.
  Definition is_nested (i : inputs_t tensor) : bool := match i with Flat _ => false | Nested _ => true end.
  Definition embed (h : heap) (params : sdict tensor) (i : inputs_t tensor) : option (inputs_t tensor) :=
    match embedding_fn h circuit_block params i with
    | None => None
    | Some c =>
      match observable with
      | None => Some (Flat c)
      | Some obs => if is_nested i then option_map (fun o => Nested [("circuit", c); ("observables", o)]) (embed_all h obs params i [])
                    else option_map Flat (embed_all h obs params i c)
      end
    end.

  (** The attributes that change, and the parameter objects. *)
  Record model := Model { m_heap : heap; m_params : sdict tensor; m_noise : option Noise; m_inputs : list string }.

  (** model.py:132-139: the names of the feature parameters of the circuit and of the observables, in the order of their first occurrence. *)
  Definition all_symbols : list nat := flat_map (fun b => flat_map (fun ue => free_symbols (snd ue)) (uuid_to_expression b [])) (circuit_block :: observables).
  Definition feature_names (h : heap) : list string := rev (nodup string_dec (rev (map (fun o => pname (h o)) (filter (fun o => negb (ptrain (h o))) all_symbols)))).
  (** model.py:113-163. *)
  Definition new_model (h : heap) (noise : option Noise) : model := Model h (parameter_dict (converted_params h)) noise (feature_names h).

  (** model.py:165-195. *)
  Definition vparams (m : model) : sdict X := map (fun kv => (fst kv, fst (snd kv))) (filter (fun kv => requires_grad (snd kv)) (m_params m)).
  Definition vals_vparams (m : model) : list X := map snd (vparams m).
  Definition num_vparams (m : model) : nat := length (vals_vparams m).
  Definition in_features (m : model) : nat := length (m_inputs m).

  (** model.py:307-315: the i-th parameter that requires gradients gets the i-th value. *)
  Fixpoint assign (p : sdict tensor) (values : list X) : sdict tensor :=
    match p with
    | [] => []
    | kv :: r => if requires_grad (snd kv) then match values with v :: vs => (fst kv, (v, true)) :: assign r vs | [] => kv :: r end else kv :: assign r values
    end.
  Definition with_params (m : model) (p : sdict tensor) : model := Model (m_heap m) p (m_noise m) (m_inputs m).
  Definition reset_vparams (m : model) (values : list X) : option model :=
    if Nat.eqb (length values) (num_vparams m) then Some (with_params m (assign (m_params m) values)) else None.
  (** An optimiser step changes the values of the parameters that require gradients. *)
  Definition optimise (m : model) (f : string -> X -> X) : model :=
    with_params m (map (fun kv => if requires_grad (snd kv) then (fst kv, (f (fst kv) (fst (snd kv)), true)) else kv) (m_params m)).

  (** model.py:210-245 and 247-282: set the flags of the parameters in the observables, then in the circuit, and convert again. *)
  Definition set_flags_of (value : bool) (m : model) (names : list string) : option model :=
    let h := fold_left (fun oh b => match oh with Some h => option_map fst (set_trainable [b] names value true h) | None => None end) (observables ++ [circuit_block]) (Some (m_heap m)) in
    option_map (fun h => Model h (parameter_dict (converted_params h)) (m_noise m) (m_inputs m)) h.

  (** model.py:325-351. *)
  Definition run (m : model) (values : inputs_t tensor) (a : Args) : option Res :=
    option_map (fun p => b_run p a) (embed (m_heap m) (m_params m) values).
  Definition default {A} (o d : option A) : option A := match o with Some _ => o | None => d end.
  (** model.py:353-388. *)
  Definition sample (m : model) (values : inputs_t tensor) (noise : option Noise) (mit : option Mit) (a : Args) : option Res :=
    option_map (fun p => b_sample p (default noise (m_noise m)) (default mit mitigation) a) (embed (m_heap m) (m_params m) values).
  (** model.py:390-452.  A noise model that is passed becomes the model's own (line 440). *)
  Definition expectation (m : model) (values : inputs_t tensor) (obs : option Obs) (meas : option Meas) (noise : option Noise) (mit : option Mit) (a : Args) : option (model * Res) :=
    match obs, observable with
    | None, None => None
    | _, _ =>
      match embed (m_heap m) (m_params m) values with
      | None => None
      | Some p => Some (match noise with Some _ => Model (m_heap m) (m_params m) noise (m_inputs m) | None => m end,
                        b_expectation obs p (default meas measurement) (default noise (m_noise m)) (default mit mitigation) a)
      end
    end.

  (** Histories of calls.  A call that raises leaves the model as it was. *)
  Inductive call :=
  | Run (values : inputs_t tensor) (a : Args)
  | Sample (values : inputs_t tensor) (noise : option Noise) (mit : option Mit) (a : Args)
  | Expectation (values : inputs_t tensor) (obs : option Obs) (meas : option Meas) (noise : option Noise) (mit : option Mit) (a : Args)
  | ResetVparams (values : list X)
  | Optimise (f : string -> X -> X)
  | SetAsVariational (names : list string)
  | SetAsFixed (names : list string).
  Inductive outcome := Raised | Done | Got (r : Res).
  Definition got (r : option Res) : outcome := match r with Some r => Got r | None => Raised end.
  Definition become (m : model) (m' : option model) : model * outcome := match m' with Some m' => (m', Done) | None => (m, Raised) end.
  Definition step (m : model) (c : call) : model * outcome :=
    match c with
    | Run v a => (m, got (run m v a))
    | Sample v n k a => (m, got (sample m v n k a))
    | Expectation v o me n k a => match expectation m v o me n k a with Some (m', r) => (m', Got r) | None => (m, Raised) end
    | ResetVparams vs => become m (reset_vparams m vs)
    | Optimise f => (optimise m f, Done)
    | SetAsVariational names => become m (set_flags_of true m names)
    | SetAsFixed names => become m (set_flags_of false m names)
    end.
  Definition exec (m : model) (cs : list call) : model := fold_left (fun m c => fst (step m c)) cs m.
End QuantumModel.
