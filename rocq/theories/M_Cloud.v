(** Workloads on the remote platform: qadence/pasqal_cloud_connection.py, and the clients of
    qadence/backends/pulser/cloud.py.

    The remote side is a function from time to the status of a workload.  Simplifications: a request takes no time,
    so the k-th poll happens after k sleeps; times are real numbers, not floats.  Serialization of circuits,
    observables and numbers to text is an argument (its own properties are those of M_Serialize.v). *)
From Coq Require Import String Reals List Arith Bool ZArith.
From Coq Require Import List.
Import ListNotations.
Open Scope R_scope.

(** * Results: pasqal_cloud_connection.py:162-236 *)
(** The statuses lines 192-206 distinguish; any other string is [Unknown]. *)
Inductive status : Type := Done | Pending | Running | Paused | Canceled | TimedOut | Errored | Unknown.
(** 174-206 [check_status]. *)
Inductive check : Type := Finished | NotDoneError | StoppedError | UndefinedError.
Definition check_status (s : status) : check :=
  match s with
  | Done => Finished
  | Pending | Running | Paused => NotDoneError
  | Canceled | TimedOut | Errored => StoppedError
  | Unknown => UndefinedError
  end.
(** What [get_result] does: returns the workload as it was at a time, or raises. *)
Inductive outcome : Type :=
| Returned (t : R)
| RaisedStopped (t : R)
| RaisedUndefined (t : R)
| RaisedTimeout (t : R)
| RaisedZeroDivision
| RaisedNegativeSleep.

(** 227: [int(timeout // refresh_time)] as the length of a range. *)
Definition refresh_count (timeout refresh : R) : nat := Z.to_nat (Int_part (timeout / refresh)).

(** 228-235: the loop, with [n] iterations left at time [t]. *)
Fixpoint poll (remote : R -> status) (refresh : R) (n : nat) (t : R) : outcome :=
  match n with
  | O => RaisedTimeout t
  | S m => match check_status (remote t) with
           | Finished => Returned t
           | StoppedError => RaisedStopped t
           | UndefinedError => RaisedUndefined t
           | NotDoneError => if Rlt_dec refresh 0 then RaisedNegativeSleep else poll remote refresh m (t + refresh)
           end
  end.
(** 209-235 [get_result], called at time 0. *)
Definition get_result (remote : R -> status) (timeout refresh : R) : outcome :=
  if Req_EM_T refresh 0 then RaisedZeroDivision else poll remote refresh (refresh_count timeout refresh) 0.

(** * Specifications of workloads: pasqal_cloud_connection.py:16-159 *)
(** A tensor of parameter values: its shape and its entries in order. *)
Record tensor : Type := { t_shape : list nat; t_data : list R }.
Inductive result_type : Type := RUN | SAMPLE | EXPECTATION.

Section Spec.
  Variables Circuit Block Text : Type.
  Record spec : Type := {
    s_circuit : Circuit;
    s_backend : string;
    s_types : list result_type;
    s_values : option (list (string * tensor));
    s_observable : option Block
  }.

  (** 60-68 [_validate_parameter_values]: false when it raises. *)
  Definition lengths (vs : list (string * tensor)) : list nat :=
    flat_map (fun v => match t_shape (snd v) with [n] => [n] | _ => [] end) vs.
  Definition valid_values (o : option (list (string * tensor))) : bool :=
    match o with
    | None => true
    | Some vs =>
        if forallb (fun v => Nat.ltb 1 (length (t_shape (snd v)))) vs then false
        else forallb (fun n => Nat.eqb n (hd O (lengths vs))) (lengths vs)
    end.
  (** 53-58 [__post_init__]. *)
  Definition wants_expectation (ts : list result_type) : bool :=
    existsb (fun t => match t with EXPECTATION => true | _ => false end) ts.
  Definition valid (s : spec) : bool :=
    negb (wants_expectation (s_types s) && match s_observable s with None => true | Some _ => false end) && valid_values (s_values s).

  (** A model, as far as [workload_spec] (71-103) could look at it: the circuit it was made from, its backend, the
      current values of its variational parameters, its own observable. *)
  Record model : Type := {
    m_original : Circuit; m_backend : string; m_trained : list (string * R); m_observable : option Block
  }.
  (** 101-103. *)
  Definition workload_spec (m : model) (ts : list result_type) (vs : option (list (string * tensor))) (o : option Block) : spec :=
    {| s_circuit := m_original m; s_backend := m_backend m; s_types := ts; s_values := vs; s_observable := o |}.

  (** Text made by the library: serialize and json.dumps of circuits and blocks, json.dumps of parameter values. *)
  Variable circuit_text : Circuit -> Text.
  Variable block_text : Block -> Text.
  Variable values_text : list (string * tensor) -> Text.
  Record payload : Type := {
    p_backend : string;
    p_circuit : Text;
    p_types : list string;
    p_values : Text;
    p_observable : option Text
  }.
  (** 16-19: the values of ResultType. *)
  Definition type_name (t : result_type) : string :=
    match t with RUN => "run" | SAMPLE => "sample" | EXPECTATION => "expectation" end.
  (** 113-116 [_parameter_values_to_json] and 119-140 [_workload_spec_to_json]; what submit_workload (143-159) sends. *)
  Definition submit (s : spec) : payload := {|
    p_backend := s_backend s;
    p_circuit := circuit_text (s_circuit s);
    p_types := map type_name (s_types s);
    p_values := values_text (match s_values s with None => [] | Some vs => vs end);
    p_observable := option_map block_text (s_observable s)
  |}.
End Spec.

(** * Clients: backends/pulser/cloud.py *)
(** The arguments of [_get_client] (13-20): the key of the cache. *)
Record credentials : Type := {
  username : option string; password : option string; project : option string; environment : option string; token : option nat
}.
(** The environment variables read at lines 23-31. *)
Record variables : Type := { v_username : option string; v_password : option string; v_project : option string; v_environment : option string }.
(** The object returned (46-53): its identity and what it was made from; [client_env] is "preprod", "dev" or "prod". *)
Record client : Type := {
  client_id : nat; client_username : string; client_password : string; client_project : string; client_env : string; client_token : option nat
}.
Definition or_variable (given : option string) (var : option string) (default : string) : string :=
  match given with Some s => s | None => match var with Some s => s | None => default end end.
Definition truthy (s : string) : bool := negb (String.eqb s "").
(** 13-53 [_get_client] without its cache; [None] for the exception of line 44.  DEFAULT_CLOUD_ENV is "prod"
    (backends/pulser/config.py:12). *)
Definition make_client (id : nat) (v : variables) (c : credentials) : option client :=
  let u := or_variable (username c) (v_username v) "" in
  let p := or_variable (password c) (v_password v) "" in
  let pr := or_variable (project c) (v_project v) "" in
  let e := or_variable (environment c) (v_environment v) "prod" in
  if (truthy u && truthy p && truthy pr) || (match token c with Some _ => true | None => false end && truthy pr)
  then Some {| client_id := id; client_username := u; client_password := p; client_project := pr;
               client_env := if String.eqb e "preprod" then "preprod" else if String.eqb e "dev" then "dev" else "prod";
               client_token := token c |}
  else None.

Definition opt_dec {A : Type} (d : forall a b : A, {a = b} + {a <> b}) : forall a b : option A, {a = b} + {a <> b}.
Proof. decide equality. Defined.
Definition cred_dec : forall a b : credentials, {a = b} + {a <> b}.
Proof. decide equality; apply opt_dec; first [apply string_dec | apply Nat.eq_dec]. Defined.

(** [lru_cache(maxsize=5)] of line 12: most recently used first. *)
Record process : Type := { vars : variables; cache : list (credentials * client); made : nat }.
Fixpoint cached (c : credentials) (l : list (credentials * client)) : option client :=
  match l with [] => None | (c', k) :: r => if cred_dec c' c then Some k else cached c r end.
Definition uncache (c : credentials) (l : list (credentials * client)) : list (credentials * client) :=
  filter (fun e => if cred_dec (fst e) c then false else true) l.
(** 56-63 [get_client]: the client or the exception; exceptions are not cached. *)
Definition get_client (p : process) (c : credentials) : process * option client :=
  match cached c (cache p) with
  | Some k => ({| vars := vars p; cache := (c, k) :: uncache c (cache p); made := made p |}, Some k)
  | None => match make_client (made p) (vars p) c with
            | None => (p, None)
            | Some k => ({| vars := vars p; cache := firstn 5 ((c, k) :: cache p); made := S (made p) |}, Some k)
            end
  end.
(** What can happen in a process: the environment variables change, or a client is asked for. *)
Inductive event : Type := SetVariables (v : variables) | Ask (c : credentials).
Definition happen (p : process) (e : event) : process :=
  match e with
  | SetVariables v => {| vars := v; cache := cache p; made := made p |}
  | Ask c => fst (get_client p c)
  end.
Definition after (p : process) (h : list event) : process := fold_left happen h p.
Definition fresh (v : variables) : process := {| vars := v; cache := []; made := O |}.
