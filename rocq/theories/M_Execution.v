(** Model of qadence/execution.py, of backend_factory and config_factory in qadence/backends/api.py, of set_backend_config in
    qadence/extensions.py and of the constructor of QuantumCircuit (qadence/circuit.py:34-52), with the part of QuantumModel
    (qadence/model.py) they are compared with.  Python values that are only handed on are opaque.  Calls follow Python's rules for
    positional and keyword arguments and functools.singledispatch.  Configuration objects are mutable and live in a heap.  An exception is
    [None].  The backends' own convert, run, sample and expectation are arguments of the model. *)
From Coq Require Import String List Arith Bool.
From Verif Require Import M_Tensor.
Import ListNotations.
Open Scope string_scope.
Open Scope list_scope.

(** types.py BackendName, DiffMode; names of backends that are not installed. *)
Inductive bname := Pyqtorch | Horqrux | Pulser | Unknown (s : string).
Inductive dmode := AD | Adjoint | Gpsr.
Definition bname_eqb (a b : bname) : bool :=
  match a, b with Pyqtorch, Pyqtorch | Horqrux, Horqrux | Pulser, Pulser => true | Unknown s, Unknown t => String.eqb s t | _, _ => false end.

Section Execution.
  (** Registers, blocks, dictionaries of parameter values, the user's other configuration options, other Python objects. *)
  Variables Reg Block Dict User Other : Type.
  Variable empty_dict : Dict.
  (** Register(n), register.n_qubits, block.n_qubits, len(block) > 0, isinstance(block, AnalogBlock); whether qubit_support is a global QubitSupport. *)
  Variable Register : nat -> Reg.
  Variables (r_qubits : Reg -> nat) (b_qubits : Block -> nat) (b_nonempty b_analog b_global : Block -> bool).

  Definition circuit := (Reg * Block)%type.
  Inductive pyval :=
  | VCircuit (c : circuit) | VBlock (b : Block) | VRegister (r : Reg) | VInt (n : nat) | VList (l : list pyval) | VNone
  | VDict (d : Dict) | VBackend (b : bname) | VDiff (d : dmode) | VConfig (a : nat) | VConfigDict (u : User) | VBig | VOther (x : Other).
  Definition kwargs := list (string * pyval).

  (** circuit.py:34-52, for one block. *)
  Definition QuantumCircuit (r : Reg) (b : Block) : option circuit :=
    let global_block := b_analog b && b_global b in
    if negb global_block && b_nonempty b && Nat.ltb (r_qubits r) (b_qubits b) then None else Some (r, b).

  (** * Python's calls *)
  Fixpoint lookup {A} (d : list (string * A)) (k : string) : option A :=
    match d with [] => None | (k', v) :: r => if String.eqb k' k then Some v else lookup r k end.
  Definition mem (k : string) (l : list string) : bool := existsb (String.eqb k) l.
  (** The parameters of a function, with defaults. *)
  Definition signature := list (string * option pyval).
  (** Positional arguments are assigned in order; too many are a TypeError. *)
  Fixpoint bind_positional (s : signature) (pos : list pyval) : option (kwargs * signature) :=
    match pos, s with
    | [], _ => Some ([], s)
    | _ :: _, [] => None
    | v :: r, (n, _) :: s' => option_map (fun er => ((n, v) :: fst er, snd er)) (bind_positional s' r)
    end.
  (** The remaining parameters come from the keywords or from their defaults; without either it is a TypeError. *)
  Fixpoint bind_keywords (s : signature) (kw : kwargs) : option kwargs :=
    match s with
    | [] => Some []
    | (n, d) :: s' =>
        match (match lookup kw n with Some v => Some v | None => d end) with
        | None => None
        | Some v => option_map (cons (n, v)) (bind_keywords s' kw)
        end
    end.
  (** A parameter given twice, or an unknown keyword without **kwargs, is a TypeError.  Returns the bound parameters and **kwargs. *)
  Definition bind (s : signature) (var_keyword : bool) (pos : list pyval) (kw : kwargs) : option (kwargs * kwargs) :=
    match bind_positional s pos with
    | None => None
    | Some (bound, rest) =>
        if existsb (fun kv => mem (fst kv) (map fst bound)) kw then None
        else
          let extra := filter (fun kv => negb (mem (fst kv) (map fst s))) kw in
          if negb var_keyword && match extra with [] => false | _ => true end then None
          else option_map (fun e => (bound ++ e, extra)) (bind_keywords rest kw)
    end.
  Definition arg (env : kwargs) (k : string) : pyval := match lookup env k with Some v => v | None => VNone end.

  (** * Backends *)
  (** The attributes of a configuration that set_backend_config writes, its class and the user's other options. *)
  Record config := Config { c_class : bname; c_gate_params : bool; c_composition : bool; c_user : User }.
  Definition heap := list config.
  (** The options of a default configuration, and those that the dictionary of a user gives (None for an unknown option). *)
  Variable default_user : bname -> User.
  Variable dict_user : bname -> User -> option (bool * bool * User).
  Definition default_configuration (b : bname) : config := Config b true false (default_user b).
  Record backend := Backend { k_name : bname; k_diff : option dmode; k_config : nat }.

  (** extensions.py:45-60: the backend modules that exist. *)
  Definition import_backend (b : bname) : bool := match b with Unknown _ => false | _ => true end.
  (** backends/pyqtorch/backend.py:87-89, horqrux/backend.py:40-41, pulser/backend.py:133-134. *)
  Definition supports_ad (b : bname) : bool := match b with Pyqtorch | Horqrux => true | _ => false end.
  Definition supports_adjoint (b : bname) : bool := match b with Pyqtorch => true | _ => false end.
  (** extensions.py:109-114. *)
  Definition validate_diff_mode (b : bname) (d : option dmode) : bool :=
    match d with Some AD => supports_ad b | Some Adjoint => supports_adjoint b | _ => true end.
  (** extensions.py:117-137: the configuration object is changed in place. *)
  Definition set_backend_config (b : bname) (d : option dmode) (c : config) : config :=
    match b with
    | Pyqtorch => Config (c_class c) (negb (match d with Some AD => true | _ => false end)) true (c_user c)
    | _ => Config (c_class c) true (c_composition c) (c_user c)
    end.
  Fixpoint write (h : heap) (a : nat) (c : config) : heap :=
    match h, a with [], _ => [] | _ :: r, O => c :: r | x :: r, S a' => x :: write r a' c end.
  (** api.py:22-69 with config_factory (72-80).  [configuration] is None, a dictionary or a configuration object; other values fail. *)
  Definition backend_factory (h : heap) (b : bname) (d : option dmode) (configuration : pyval) : option (backend * heap) :=
    if import_backend b then
      obind (match configuration with
             | VNone => Some (length h, h ++ [default_configuration b])
             | VConfigDict u => option_map (fun x => (length h, h ++ [Config b (fst (fst x)) (snd (fst x)) (snd x)])) (dict_user b u)
             | VConfig a => match nth_error h a with Some c => if bname_eqb (c_class c) b then Some (a, h) else None | None => None end
             | _ => None
             end) (fun ah => let '(a, h) := ah in
      if validate_diff_mode b d then
        obind (nth_error h a) (fun c => Some (Backend b d a, write h a (set_backend_config b d c)))
      else None)
    else None.

  (** The backend's methods.  Conversion depends on the configuration as it is then; a converted program, its parameters and its embedding. *)
  Variables Conv Params Emb Res : Type.
  Variable convert : bname -> config -> circuit -> option (list pyval) -> option Conv.
  Variable params_of : Conv -> Params.
  Variable embedding_fn : Conv -> Params -> pyval -> option Emb.
  Variable b_run : backend -> Conv -> Emb -> pyval -> pyval -> option Res.
  Variable b_sample : backend -> Conv -> Emb -> pyval -> pyval -> pyval -> pyval -> pyval -> option Res.
  Variable b_expectation : backend -> Conv -> Emb -> pyval -> pyval -> pyval -> pyval -> pyval -> option Res.
  (** A result, whether gradients are recorded, and the configurations afterwards. *)
  Definition outcome := option (Res * bool * heap).

  Definition convert_with (h : heap) (k : backend) (c : circuit) (obs : option (list pyval)) : option Conv :=
    obind (nth_error h (k_config k)) (fun cf => convert (k_name k) cf c obs).
  (** [values or dict()] *)
  Definition or_dict (v : pyval) : pyval := match v with VNone | VInt 0 | VList [] => VDict empty_dict | _ => v end.
  Definition as_backend (v : pyval) : bname := match v with VBackend b => b | _ => Unknown "" end.
  Definition as_diff (v : pyval) : option (option dmode) := match v with VNone => Some None | VDiff d => Some (Some d) | _ => None end.
  (** execution.py:74-76 and 153-155. *)
  Definition default_diff (b : bname) : option dmode := if bname_eqb b Pyqtorch then Some AD else None.

  (** execution.py:65-85. *)
  Definition run_signature : signature :=
    [("circuit", None); ("values", Some VNone); ("state", Some VNone); ("backend", Some (VBackend Pyqtorch)); ("endianness", Some VBig); ("configuration", Some VNone)].
  Definition run_circuit (h : heap) (pos : list pyval) (kw : kwargs) : outcome :=
    obind (bind run_signature false pos kw) (fun e => let env := fst e in
    match arg env "circuit" with
    | VCircuit c =>
        let b := as_backend (arg env "backend") in
        obind (backend_factory h b (default_diff b) (arg env "configuration")) (fun kh => let '(k, h) := kh in
        obind (convert_with h k c None) (fun conv =>
        obind (embedding_fn conv (params_of conv) (or_dict (arg env "values"))) (fun emb =>
        obind (b_run k conv emb (arg env "state") (arg env "endianness")) (fun r => Some (r, false, h)))))
    | _ => None
    end).
  (** execution.py:88-90. *)
  Definition run_register (h : heap) (pos : list pyval) (kw : kwargs) : outcome :=
    obind (bind [("register", None); ("block", None)] true pos kw) (fun e =>
    match arg (fst e) "register", arg (fst e) "block" with
    | VRegister r, VBlock b => obind (QuantumCircuit r b) (fun c => run_circuit h [VCircuit c] (snd e))
    | _, _ => None
    end).
  (** execution.py:93-95. *)
  Definition run_int (h : heap) (pos : list pyval) (kw : kwargs) : outcome :=
    obind (bind [("n_qubits", None); ("block", None)] true pos kw) (fun e =>
    match arg (fst e) "n_qubits" with
    | VInt n => run_register h [VRegister (Register n); arg (fst e) "block"] (snd e)
    | _ => None
    end).
  (** execution.py:24-31. *)
  Definition n_qubits_block (b : Block) : option nat := if b_global b then None else Some (b_qubits b).
  (** execution.py:98-101. *)
  Definition run_block (h : heap) (pos : list pyval) (kw : kwargs) : outcome :=
    obind (bind [("block", None)] true pos kw) (fun e =>
    match arg (fst e) "block" with
    | VBlock b => obind (n_qubits_block b) (fun n => run_register h [VRegister (Register n); VBlock b] (snd e))
    | _ => None
    end).
  (** Python: adding a Tensor to a tuple is a TypeError. *)
  Definition tuple_plus_tensor (t : list Res) (x : Res) : option (list Res) := None.
  (** torch.concat refuses an empty tuple. *)
  Variable concat : list Res -> option Res.
  (** singledispatch on the first positional argument, execution.py:34-109; the last case is the list, 104-109. *)
  Fixpoint run_value (x : pyval) (h : heap) (pos : list pyval) (kw : kwargs) : outcome :=
    match x with
    | VCircuit _ => run_circuit h (x :: pos) kw
    | VRegister _ => run_register h (x :: pos) kw
    | VInt _ => run_int h (x :: pos) kw
    | VBlock _ => run_block h (x :: pos) kw
    | VList cs =>
        obind (bind [("circs", None)] true (x :: pos) kw) (fun e =>
        obind ((fix go (cs : list pyval) (h : heap) (results : list Res) : option (list Res * heap) :=
           match cs with
           | [] => Some (results, h)
           | c :: r => obind (run_value c h [] (snd e)) (fun o => obind (tuple_plus_tensor results (fst (fst o))) (fun results => go r (snd o) results))
           end) cs h []) (fun rh =>
        obind (concat (fst rh)) (fun r => Some (r, false, snd rh))))
    | _ => None
    end.
  Definition run (h : heap) (pos : list pyval) (kw : kwargs) : outcome := match pos with [] => None | x :: r => run_value x h r kw end.

  (** execution.py:142-165. *)
  Definition sample_signature : signature :=
    [("circuit", None); ("values", Some VNone); ("state", Some VNone); ("n_shots", Some (VInt 100)); ("backend", Some (VBackend Pyqtorch)); ("noise", Some VNone); ("endianness", Some VBig); ("configuration", Some VNone)].
  Definition sample_circuit (h : heap) (pos : list pyval) (kw : kwargs) : outcome :=
    obind (bind sample_signature false pos kw) (fun e => let env := fst e in
    match arg env "circuit" with
    | VCircuit c =>
        let b := as_backend (arg env "backend") in
        obind (backend_factory h b (default_diff b) (arg env "configuration")) (fun kh => let '(k, h) := kh in
        obind (convert_with h k c None) (fun conv =>
        obind (embedding_fn conv (params_of conv) (or_dict (arg env "values"))) (fun emb =>
        obind (b_sample k conv emb (arg env "n_shots") (arg env "state") (arg env "noise") VNone (arg env "endianness")) (fun r => Some (r, true, h)))))
    | _ => None
    end).
  (** execution.py:168-181. *)
  Definition sample_register (h : heap) (pos : list pyval) (kw : kwargs) : outcome :=
    obind (bind [("register", None); ("block", None)] true pos kw) (fun e =>
    match arg (fst e) "register", arg (fst e) "block" with
    | VRegister r, VBlock b => obind (QuantumCircuit r b) (fun c => sample_circuit h [VCircuit c] (snd e))
    | _, _ => None
    end).
  Definition sample_int (h : heap) (pos : list pyval) (kw : kwargs) : outcome :=
    obind (bind [("n_qubits", None); ("block", None)] true pos kw) (fun e =>
    match arg (fst e) "n_qubits" with
    | VInt n => sample_register h [VRegister (Register n); arg (fst e) "block"] (snd e)
    | _ => None
    end).
  Definition sample_block (h : heap) (pos : list pyval) (kw : kwargs) : outcome :=
    obind (bind [("block", None)] true pos kw) (fun e =>
    match arg (fst e) "block" with
    | VBlock b => obind (n_qubits_block b) (fun n => sample_register h [VRegister (Register n); VBlock b] (snd e))
    | _ => None
    end).
  Definition sample (h : heap) (pos : list pyval) (kw : kwargs) : outcome :=
    match pos with
    | VCircuit _ :: _ => sample_circuit h pos kw
    | VRegister _ :: _ => sample_register h pos kw
    | VInt _ :: _ => sample_int h pos kw
    | VBlock _ :: _ => sample_block h pos kw
    | _ => None
    end.

  (** execution.py:236-271. *)
  Definition expectation_signature : signature :=
    [("circuit", None); ("observable", None); ("values", Some VNone); ("state", Some VNone); ("backend", Some (VBackend Pyqtorch)); ("diff_mode", Some VNone);
     ("measurement", Some VNone); ("noise", Some VNone); ("mitigation", Some VNone); ("endianness", Some VBig); ("configuration", Some VNone)].
  Definition as_list (v : pyval) : list pyval := match v with VList l => l | _ => [v] end.
  Definition expectation_circuit (h : heap) (pos : list pyval) (kw : kwargs) : outcome :=
    obind (bind expectation_signature false pos kw) (fun e => let env := fst e in
    match arg env "circuit" with
    | VCircuit c =>
        obind (as_diff (arg env "diff_mode")) (fun d =>
        obind (backend_factory h (as_backend (arg env "backend")) d (arg env "configuration")) (fun kh => let '(k, h) := kh in
        obind (convert_with h k c (Some (as_list (arg env "observable")))) (fun conv =>
        obind (embedding_fn conv (params_of conv) (or_dict (arg env "values"))) (fun emb =>
        obind (b_expectation k conv emb (arg env "state") (arg env "measurement") (arg env "noise") (arg env "mitigation") (arg env "endianness")) (fun r =>
        Some (r, match d with None => false | Some _ => true end, h))))))
    | _ => None
    end).
  (** execution.py:274-300. *)
  Definition expectation_register (h : heap) (pos : list pyval) (kw : kwargs) : outcome :=
    obind (bind [("register", None); ("block", None); ("observable", None)] true pos kw) (fun e =>
    match arg (fst e) "register", arg (fst e) "block" with
    | VRegister r, VBlock b => obind (QuantumCircuit r b) (fun c => expectation_circuit h [VCircuit c; arg (fst e) "observable"] (snd e))
    | _, _ => None
    end).
  Definition expectation_int (h : heap) (pos : list pyval) (kw : kwargs) : outcome :=
    obind (bind [("n_qubits", None); ("block", None); ("observable", None)] true pos kw) (fun e =>
    match arg (fst e) "n_qubits", arg (fst e) "block" with
    | VInt n, VBlock b => obind (QuantumCircuit (Register n) b) (fun c => expectation_circuit h [VCircuit c; arg (fst e) "observable"] (snd e))
    | _, _ => None
    end).
  Definition expectation_block (h : heap) (pos : list pyval) (kw : kwargs) : outcome :=
    obind (bind [("block", None); ("observable", None)] true pos kw) (fun e =>
    match arg (fst e) "block" with
    | VBlock b => obind (n_qubits_block b) (fun n => obind (QuantumCircuit (Register n) b) (fun c => expectation_circuit h [VCircuit c; arg (fst e) "observable"] (snd e)))
    | _ => None
    end).
  Definition expectation (h : heap) (pos : list pyval) (kw : kwargs) : outcome :=
    match pos with
    | VCircuit _ :: _ => expectation_circuit h pos kw
    | VRegister _ :: _ => expectation_register h pos kw
    | VInt _ :: _ => expectation_int h pos kw
    | VBlock _ :: _ => expectation_block h pos kw
    | _ => None
    end.

  (** * QuantumModel, model.py:85-163 and 317-452, as far as one call after construction goes *)
  Variable parameter_dict : Params -> Params.
  Record qmodel := QModel { q_backend : backend; q_conv : Conv; q_params : Params; q_has_observable : bool; q_measurement : pyval; q_noise : pyval; q_mitigation : pyval }.
  Definition default (v d : pyval) : pyval := match v with VNone => d | _ => v end.
  Definition QuantumModel (h : heap) (c : circuit) (observable backend diff_mode measurement noise mitigation configuration : pyval) : option (qmodel * heap) :=
    obind (as_diff diff_mode) (fun d => match d with
    | None => None
    | Some _ =>
      obind (backend_factory h (as_backend backend) d configuration) (fun kh => let '(k, h) := kh in
      let obs := match observable with VNone => None | _ => Some (as_list observable) end in
      obind (convert_with h k c obs) (fun conv =>
      Some (QModel k conv (parameter_dict (params_of conv)) (match obs with Some _ => true | None => false end) measurement noise mitigation, h)))
    end).
  Definition model_run (m : qmodel) (values state endianness : pyval) : option Res :=
    obind (embedding_fn (q_conv m) (q_params m) (match values with VNone => VDict empty_dict | _ => values end)) (fun emb => b_run (q_backend m) (q_conv m) emb state endianness).
  Definition model_sample (m : qmodel) (values n_shots state noise mitigation endianness : pyval) : option Res :=
    obind (embedding_fn (q_conv m) (q_params m) values) (fun emb =>
    b_sample (q_backend m) (q_conv m) emb n_shots state (default noise (q_noise m)) (default mitigation (q_mitigation m)) endianness).
  Definition model_expectation (m : qmodel) (values state measurement noise mitigation endianness : pyval) : option Res :=
    if q_has_observable m then
      obind (embedding_fn (q_conv m) (q_params m) values) (fun emb =>
      b_expectation (q_backend m) (q_conv m) emb state (default measurement (q_measurement m)) (default noise (q_noise m)) (default mitigation (q_mitigation m)) endianness)
    else None.
  (** model.py:247-282: the circuit and the observables are converted again, with the configuration as it is now. *)
  Definition reconvert (h : heap) (m : qmodel) (c : circuit) (obs : option (list pyval)) : option Conv := convert_with h (q_backend m) c obs.
End Execution.
