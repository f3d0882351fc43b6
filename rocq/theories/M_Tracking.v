(** Model of experiment tracking: qadence/ml_tools/callbacks/writer_registry.py, the callbacks of callback.py that use a
    writer (WriteMetrics, PlotMetrics, LogHyperparameters, LogModelTracker, PrintMetrics) and callbackmanager.py
    (initialize_callbacks, start_training, end_training), on top of the traces of [M_Trainer] and of [M_Callbacks].

    A log folder of TensorBoard and an MLflow server are modelled by what they have been told; what TensorBoard shows
    follows its documentation: a session that starts with purge_step n hides everything earlier with a step of n or more.
    Simplifications: frequencies are natural numbers; callbacks of the user that replace the optimisation result are left
    out; a stage at which a callback raises is treated as if the callbacks of the writer had run. *)
From Coq Require Import String List Arith Bool ZArith Ascii.
From Coq Require Import List.
From Verif Require Import M_Trainer M_Callbacks.
Import ListNotations.

(** * What callbacks see *)
(** Where the metrics of trainer.opt_result come from (trainer.py:713-800): nothing yet, the averages over the batches of
    a training epoch or of a validation (the one before training: [initial]), one batch. *)
Inductive content : Type :=
| NoMetrics | OfTrain (epoch : nat) | OfVal (initial : bool) (epoch : nat) | OfBatch (p : phase) (epoch : nat).
(** The last result, the last epoch in [train_losses] (trainer.py:437-443: appended when run_training returns), and
    whether the training has started. *)
Record ostate : Type := { cur : content; finished : option nat; started : bool }.
(** base_trainer.py:361-397: the callbacks of a start see the last result; at an end the result is rebuilt, at the end of
    the training from the last epoch of [train_losses] (trainer.py:763-768). *)
Definition content_at (st : ostate) (e : event) : content :=
  match ev_stage e with
  | Start _ => cur st
  | End PTrainEpoch => OfTrain (ev_epoch e)
  | End PValEpoch => OfVal (negb (started st)) (ev_epoch e)
  | End PTrain => match finished st with None => NoMetrics | Some n => OfTrain n end
  | End p => OfBatch p (ev_epoch e)
  end.
Definition obs : Type := (stage * nat * content)%type.    (* stage, iteration of the result, its metrics *)
Section Observe.
  Variable w : world.
  Definition advance (before : list entry) (st : ostate) (x : entry) : ostate :=
    match x with
    | Work _ => st
    | Ev e =>
        {| cur := content_at st e;
           finished := match ev_stage e, r_raise (w (before ++ [x])) with
                       | End PTrainEpoch, None => Some (ev_epoch e) | _, _ => finished st end;
           started := started st || stage_eqb (ev_stage e) (Start PTrain) |}
    end.
  Fixpoint observe (before tr : list entry) (st : ostate) : list obs :=
    match tr with
    | [] => []
    | x :: r => match x with Ev e => [(ev_stage e, ev_seen e, content_at st e)] | Work _ => [] end ++
                observe (before ++ [x]) r (advance before st x)
    end.
End Observe.
(** callbackmanager.py:180: the result at the start has no metrics. *)
Definition ostate0 : ostate := {| cur := NoMetrics; finished := None; started := false |}.

(** * The callbacks that use the writer *)
Inductive kind : Type := KWrite | KPlot | KParams | KModel | KOther.
Record config : Type := { write_every : nat; plot_every : nat; val_every : nat; has_params : bool; log_model : bool }.
(** callbackmanager.py:120-140 [add_callback] with a name. *)
Definition mk (k : kind) (s : stage) (every : nat) : kind * callback :=
  (k, {| on := s; called_every := Z.of_nat every; condition := fun _ => true; modify := fun o => o |}).
Definition when {A} (b : bool) (x : A) : list A := if b then [x] else [].
(** callbackmanager.py:75-118 [initialize_callbacks]; printing and checkpoints left out (C31, C62, C78). *)
Definition initialize_callbacks (user : list (kind * callback)) (c : config) : list (kind * callback) :=
  user ++
  [mk KPlot (Start PTrain) 1] ++
  when (Nat.ltb 0 (val_every c)) (mk KWrite (Start PTrain) 1) ++
  when (Nat.ltb 0 (plot_every c)) (mk KPlot (End PTrainEpoch) (plot_every c)) ++
  when (Nat.ltb 0 (write_every c)) (mk KWrite (End PTrainEpoch) (write_every c)) ++
  when (Nat.ltb 0 (val_every c)) (mk KWrite (End PValEpoch) (val_every c)) ++
  when (has_params c) (mk KParams (End PTrain) 1) ++
  when (log_model c) (mk KModel (End PTrain) 1) ++
  when (Nat.ltb 0 (plot_every c)) (mk KPlot (End PTrain) 1) ++
  when (Nat.ltb 0 (write_every c)) (mk KWrite (End PTrain) 1).
(** What a writer is told: callback.py:278-288, 317-328, 357-367, 472-484; processes other than rank 0 tell nothing. *)
Inductive action : Type := Write (step : nat) (m : content) | Plot (step : nat) | Params | Model.
Definition act (rank : nat) (k : kind) (o : obs) : list action :=
  if Nat.eqb rank 0 then
    match k with
    | KWrite => [Write (snd (fst o)) (snd o)]
    | KPlot => [Plot (snd (fst o))]
    | KParams => [Params]
    | KModel => [Model]
    | KOther => []
    end
  else [].
(** callbackmanager.py:152-168 [run_callbacks] at one stage. *)
Definition tell (rank : nat) (cbs : list (kind * callback)) (o : obs) : list action :=
  flat_map (fun kc => if call (snd kc) (fst (fst o)) {| iteration := Z.of_nat (snd (fst o)); opt_data := 0 |}
                      then act rank (fst kc) o else []) cbs.
Definition actions (w : world) (rank : nat) (cbs : list (kind * callback)) (tr : list entry) : list action :=
  flat_map (tell rank cbs) (observe w [] tr ostate0).

(** * Writers *)
Section Writers.
  Variables V Fig : Type.
  Variable metrics_of : content -> list (string * V).                (* the metrics of a result *)
  Variable plotting_functions : list (nat -> string * Fig).          (* each applied to the model and the iteration *)

  (** ** TensorBoard: writer_registry.py:140-248; the content of one log folder *)
  Inductive record : Type := Purge (step : nat) | Scalar (tag : string) (v : V) (step : nat) | Figure (tag : string) (f : Fig) (step : nat) | HParams.
  (** 172-188 [write], 205-228 [plot], 190-203 [log_hyperparams], 230-248 [log_model] (a warning). *)
  Definition tb_record (a : action) : list record :=
    match a with
    | Write i m => map (fun kv => Scalar (fst kv) (snd kv) i) (metrics_of m)
    | Plot i => map (fun pf => Figure (fst (pf i)) (snd (pf i)) i) plotting_functions
    | Params => [HParams]
    | Model => []
    end.
  (** 150-165 [open] with the iteration of callbackmanager.py:207 (global_step), then what the callbacks tell. *)
  Definition tb_fit (folder : list record) (global_step : nat) (acts : list action) : list record :=
    folder ++ Purge global_step :: flat_map tb_record acts.
  (** What TensorBoard shows for a folder. *)
  Definition kept (n : nat) (r : record) : bool := match r with Scalar _ _ i | Figure _ _ i => Nat.ltb i n | _ => true end.
  Definition show1 (shown : list record) (r : record) : list record :=
    match r with Purge n => filter (kept n) shown | _ => shown ++ [r] end.
  Definition shown (folder : list record) : list record := fold_left show1 folder [].

  (** ** MLflow: writer_registry.py:251-419 *)
  Record run : Type := {
    experiment : string; run_name : string;
    run_metrics : list (string * V * nat); run_figures : list (string * Fig); run_params : bool; run_model : bool
  }.
  Record server : Type := { experiments : list string; runs : list run; active : option run }.
  (** [os.getenv(name, str(uuid4()))], 288-289: the variable, or a fresh name. *)
  Definition getenv (v : option string) (fresh : string) : string := match v with Some x => x | None => fresh end.
  (** 272-303 [open]: [None] when [start_run] raises because a run is active. *)
  Definition ml_open (s : server) (env_experiment env_run : option string) (fresh1 fresh2 : string) : option server :=
    let e := getenv env_experiment fresh1 in
    let es := if existsb (String.eqb e) (experiments s) then experiments s else experiments s ++ [e] in
    match active s with
    | Some _ => None
    | None => Some {| experiments := es; runs := runs s;
                      active := Some {| experiment := e; run_name := getenv env_run fresh2; run_metrics := []; run_figures := [];
                                        run_params := false; run_model := false |} |}
    end.
  (** [log_figure(fig, descr)]: an artifact of that name is replaced. *)
  Fixpoint set_figure (k : string) (f : Fig) (l : list (string * Fig)) : list (string * Fig) :=
    match l with [] => [(k, f)] | (k', f') :: r => if String.eqb k' k then (k, f) :: r else (k', f') :: set_figure k f r end.
  (** 310-325 [write], 342-365 [plot], 327-340 [log_hyperparams], 396-419 [log_model]. *)
  Definition ml_record (r : run) (a : action) : run :=
    match a with
    | Write i m => {| experiment := experiment r; run_name := run_name r;
                      run_metrics := run_metrics r ++ map (fun kv => (fst kv, snd kv, i)) (metrics_of m);
                      run_figures := run_figures r; run_params := run_params r; run_model := run_model r |}
    | Plot i => {| experiment := experiment r; run_name := run_name r; run_metrics := run_metrics r;
                   run_figures := fold_left (fun fs pf => set_figure (fst (pf i)) (snd (pf i)) fs) plotting_functions (run_figures r);
                   run_params := run_params r; run_model := run_model r |}
    | Params => {| experiment := experiment r; run_name := run_name r; run_metrics := run_metrics r;
                   run_figures := run_figures r; run_params := true; run_model := run_model r |}
    | Model => {| experiment := experiment r; run_name := run_name r; run_metrics := run_metrics r;
                  run_figures := run_figures r; run_params := run_params r; run_model := true |}
    end.
  (** 305-308 [close]: the run is ended and stays on the server. *)
  Definition ml_close (s : server) : server :=
    match active s with None => s | Some r => {| experiments := experiments s; runs := runs s ++ [r]; active := None |} end.
  (** callbackmanager.py:205-217 around the training; trainer.py:311-314: [_fit_end] is not reached when the training raises
      ([ok] = false), so the run stays active. *)
  Definition ml_fit (s : server) (env_experiment env_run : option string) (fresh1 fresh2 : string) (acts : list action) (ok : bool) : option server :=
    match ml_open s env_experiment env_run fresh1 fresh2 with
    | None => None
    | Some s1 =>
        let s2 := {| experiments := experiments s1; runs := runs s1; active := option_map (fun r => fold_left ml_record acts r) (active s1) |} in
        Some (if ok then ml_close s2 else s2)
    end.

  (** ** Printing: writer_registry.py:121-137 *)
  Definition lower_char (a : ascii) : ascii :=
    let n := nat_of_ascii a in if Nat.leb 65 n && Nat.leb n 90 then ascii_of_nat (n + 32) else a.
  Fixpoint lower (s : string) : string := match s with EmptyString => EmptyString | String a r => String (lower_char a) (lower r) end.
  Fixpoint contains (p s : string) : bool :=
    String.prefix p s || match s with EmptyString => false | String _ r => contains p r end.
  (** 129 [loss_key]: the first metric with "loss" in its name. *)
  Definition loss_key (m : list (string * V)) : option string :=
    option_map fst (find (fun kv => contains "loss" (lower (fst kv))) m).
  Fixpoint get (k : string) (m : list (string * V)) : option V :=
    match m with [] => None | (k', v) :: r => if String.eqb k' k then Some v else get k r end.
  (** 131-136: the loss (the name with capitals is not modelled), or "Loss: None", then the others. *)
  Definition printed (m : list (string * V)) : option (string * option V) * list (string * V) :=
    match loss_key m with
    | Some k => (Some (k, get k m), filter (fun kv => negb (String.eqb (fst kv) k)) m)
    | None => (None, m)
    end.
End Writers.
Arguments Purge {V Fig}. Arguments Scalar {V Fig}. Arguments Figure {V Fig}. Arguments HParams {V Fig}.
Arguments shown {V Fig}.

(** * The signature of a logged model: writer_registry.py:367-394 *)
Section Signature.
  Variables X Y : Type.
  (** What the first batch of a loader is: a tuple of tensors, or a dictionary (also for a DictDataLoader). *)
  Inductive batch : Type := Tuple (xs : list X) | Dict (keys : list string).
  (** 386 [xs, *_ = next(iter(dataloader))]: the first tensor; a dictionary unpacks to its keys. *)
  Inductive input : Type := Tensor (x : X) | Name (k : string).
  Definition unpack (b : batch) : option input :=
    match b with Tuple (x :: _) => Some (Tensor x) | Dict (k :: _) => Some (Name k) | _ => None end.
  Variable model : input -> option Y.       (* [None] when the model raises *)
  Inductive signature : Type := NoSignature | Inferred (x : X) (y : Y) | RaisedError.
  Definition get_signature (loader : option batch) : signature :=
    match loader with
    | None => NoSignature
    | Some b => match unpack b with
                | None => RaisedError
                | Some i => match model i with
                            | None => RaisedError
                            | Some y => match i with Tensor x => Inferred x y | Name _ => NoSignature end
                            end
                end
    end.
End Signature.
