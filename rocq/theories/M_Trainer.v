(** Model of the training loop: qadence/ml_tools/trainer.py:287-604, 698-711 and
    qadence/ml_tools/train_utils/base_trainer.py:314-397. *)
From Coq Require Import List Arith Bool.
Import ListNotations.

(** ml_tools/stages.py: the stages of a run ("idle" is not announced to callbacks). *)
Inductive phase := PTrain | PTrainEpoch | PTrainBatch | PValEpoch | PValBatch.
Inductive stage := Start (p : phase) | End (p : phase).
(** One entry of the trace: a stage is announced to the callbacks in epoch [ev_epoch], and they see the optimisation
    result of iteration [ev_seen] (trainer.opt_result.iteration). *)
Record event := { ev_stage : stage; ev_epoch : nat; ev_seen : nat }.

(** What the callbacks of a stage do, or what happens inside an optimisation step: request a stop
    ([trainer._stop_training.fill_(1)]) and possibly raise.  The behaviour may depend on everything that happened
    before: [world] is applied to the trace up to and including the current entry. *)
Inductive exn := KeyboardInterrupt | OtherError.
Record reaction := { r_stop : bool; r_raise : option exn }.
Inductive entry := Ev (e : event) | Work (epoch : nat).   (* [Work]: optimize_step / loss evaluation on one batch *)
Definition world := list entry -> reaction.

Record tstate := { stop : bool; current_epoch : nat; opt_iter : nat; trace : list entry }.
Inductive res := Ok (s : tstate) | Raised (x : exn) (s : tstate).
Definition bind (r : res) (f : tstate -> res) : res := match r with Ok s => f s | Raised x s => Raised x s end.

Section Trainer.
  Variable w : world.            (* behaviour of callbacks and optimisation steps *)
  (** trainer configuration: max_iter, val_every, numbers of batches (base_trainer.py:314-336, trainer.py:623-647:
      exactly [num] batches are produced by the loader). *)
  Variables max_iter val_every n_train n_val : nat.

  (** Append an entry and let the callbacks (or the step) react. *)
  Definition happen (x : entry) (s : tstate) : res :=
    let tr := trace s ++ [x] in
    let r := w tr in
    let s' := {| stop := stop s || r_stop r; current_epoch := current_epoch s; opt_iter := opt_iter s; trace := tr |} in
    match r_raise r with None => Ok s' | Some e => Raised e s' end.
  Definition announce (st : stage) (s : tstate) : res :=
    happen (Ev {| ev_stage := st; ev_epoch := current_epoch s; ev_seen := opt_iter s |}) s.

  (** base_trainer.py:361-397 [callback]: announce the start, run the method, rebuild the optimisation result
      (iteration = current epoch, trainer.py:791-799), announce the end. *)
  Definition build_optimize_result (s : tstate) : tstate :=
    {| stop := stop s; current_epoch := current_epoch s; opt_iter := current_epoch s; trace := trace s |}.
  Definition wrap (p : phase) (body : tstate -> res) (s : tstate) : res :=
    bind (announce (Start p) s) (fun s => bind (body s) (fun s => announce (End p) (build_optimize_result s))).

  Fixpoint repeat_body (n : nat) (body : tstate -> res) (s : tstate) : res :=
    match n with O => Ok s | S m => bind (body s) (repeat_body m body) end.

  Definition work (s : tstate) : res := happen (Work (current_epoch s)) s.
  (** trainer.py:465-529 [run_training], [run_train_batch]; the on_* hooks are empty and left out. *)
  Definition run_training : tstate -> res := wrap PTrainEpoch (repeat_body n_train (wrap PTrainBatch work)).
  (** trainer.py:531-575 [run_validation], [run_val_batch] *)
  Definition run_validation : tstate -> res := wrap PValEpoch (repeat_body n_val (wrap PValBatch work)).

  Definition perform_val : bool := Nat.ltb 0 val_every.
  (** body of the loop of trainer.py:401-463 *)
  Definition epoch_body (epoch : nat) (s : tstate) : res :=
    let s := {| stop := stop s; current_epoch := epoch; opt_iter := opt_iter s; trace := trace s |} in
    bind (run_training s) (fun s =>
      if perform_val && Nat.eqb (epoch mod val_every) 0 then run_validation s else Ok s).
  Definition set_stop (s : tstate) : tstate := {| stop := true; current_epoch := current_epoch s; opt_iter := opt_iter s; trace := trace s |}.
  (** trainer.py:401-463 [_train_epochs] on the remaining epochs. *)
  Fixpoint train_epochs (epochs : list nat) (s : tstate) : res :=
    match epochs with
    | [] => Ok s
    | e :: rest =>
        if negb (stop s) then
          match epoch_body e s with
          | Raised KeyboardInterrupt s' => train_epochs rest (set_stop s')
          | Raised x s' => Raised x s'
          | Ok s' => train_epochs rest s'
          end
        else Ok s
    end.
  (** trainer.py:358-399 [_train]: range(global_step, global_step + max_iter + 1) *)
  Definition train (global_step : nat) : tstate -> res :=
    wrap PTrain (train_epochs (seq global_step (global_step + max_iter + 1 - global_step))).
  (** trainer.py:287-356 [fit] with [_fit_setup]: the loaded iteration (callbackmanager.py:171-205) is [global_step];
      [epoch0] is the current epoch before the run ([global_step] after loading a checkpoint). *)
  Definition fit (global_step epoch0 : nat) : res :=
    let s := {| stop := false; current_epoch := epoch0; opt_iter := global_step; trace := [] |} in
    bind (if perform_val then run_validation s else Ok s) (fun s => train global_step s).
End Trainer.
