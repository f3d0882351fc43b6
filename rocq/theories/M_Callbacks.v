(** Model of callbacks: qadence/ml_tools/callbacks/callback.py:100-193 and callbackmanager.py:149-170. *)
From Coq Require Import List Arith Bool ZArith.
From Verif Require Import M_Trainer.
Import ListNotations.

(** ml_tools/data.py OptimizeResult: the iteration and the rest (loss, metrics, model), kept abstract as [opt_data]. *)
Record optres := { iteration : Z; opt_data : nat }.
(** callback.py:100-139: a callback; [modify_optimize_result] (callback.py:96-108) may replace the result it looks at. *)
Record callback := { on : stage; called_every : Z; condition : optres -> bool; modify : optres -> optres }.

Definition phase_eqb (a b : phase) : bool :=
  match a, b with PTrain, PTrain | PTrainEpoch, PTrainEpoch | PTrainBatch, PTrainBatch | PValEpoch, PValEpoch | PValBatch, PValBatch => true | _, _ => false end.
Definition stage_eqb (a b : stage) : bool :=
  match a, b with Start p, Start q => phase_eqb p q | End p, End q => phase_eqb p q | _, _ => false end.

(** callback.py:156-172 [_should_call]; Python's % is Coq's Z.modulo. *)
Definition should_call (cb : callback) (when : stage) (o : optres) : bool :=
  if stage_eqb when (Start PTrain) || stage_eqb when (End PTrain) then true
  else if Z.eqb (called_every cb) 0 || Z.eqb (iteration o) 0 then false
  else if Z.eqb (iteration o mod called_every cb) 0 && condition cb o then true else false.
(** callback.py:174-193 [__call__]: whether the function is run. *)
Definition call (cb : callback) (when : stage) (o : optres) : bool :=
  if stage_eqb (on cb) when then should_call cb when (modify cb o) else false.
(** callbackmanager.py:149-170 [run_callbacks]: the positions (in the list of callbacks) whose function is run, in the order of running. *)
Fixpoint run_from (k : nat) (cbs : list callback) (when : stage) (o : optres) : list nat :=
  match cbs with
  | [] => []
  | cb :: r => (if stage_eqb (on cb) when then if call cb when o then [k] else [] else []) ++ run_from (S k) r when o
  end.
Definition run_callbacks (cbs : list callback) (when : stage) (o : optres) : list nat := run_from 0 cbs when o.

(** The calls of one callback over the trace of a run (M_Trainer): the epochs in which its function is run.  The rest of the result is [data] of the event. *)
Definition calls (cb : callback) (data : event -> nat) (tr : list entry) : list nat :=
  flat_map (fun x => match x with
    | Ev e => if call cb (ev_stage e) {| iteration := Z.of_nat (ev_seen e); opt_data := data e |} then [ev_epoch e] else []
    | Work _ => [] end) tr.
