(** Model of the learning-rate callbacks: qadence/ml_tools/callbacks/callback.py:487-666.  An optimiser is the list of the learning rates of its
    parameter groups.  Real arithmetic instead of floats. *)
From Coq Require Import Reals List ZArith.
Import ListNotations.
Open Scope R_scope.

Definition optimizer := list R.
(** callback.py:524-539 LRSchedulerStepDecay.run_callback *)
Definition step_decay (gamma : R) (o : optimizer) : optimizer := map (fun lr => lr * gamma) o.
(** callback.py:583-603 LRSchedulerCyclic.run_callback; [None] is the ZeroDivisionError for step_size = 0.  Python's // is Z.div. *)
Definition cyclic_lr (base_lr max_lr : R) (step_size iteration : Z) : option R :=
  if Z.eqb step_size 0 then None else
  let cycle := (iteration / (2 * step_size))%Z in
  let x := Rabs (IZR iteration / IZR step_size - 2 * IZR cycle - 1) in
  let scale := Rmax 0 (1 - x) in
  Some (base_lr + (max_lr - base_lr) * scale).
Definition cyclic (base_lr max_lr : R) (step_size iteration : Z) (o : optimizer) : option optimizer :=
  match cyclic_lr base_lr max_lr step_size iteration with Some lr => Some (map (fun _ => lr) o) | None => None end.
(** callback.py:647-666 LRSchedulerCosineAnnealing.run_callback *)
Definition cosine (min_lr : R) (t_max : Z) (iteration : Z) (o : optimizer) : option optimizer :=
  if Z.eqb t_max 0 then None else
  Some (map (fun max_lr => min_lr + (max_lr - min_lr) * (1 + cos (PI * IZR iteration / IZR t_max)) / 2) o).
Fixpoint cosine_calls (min_lr : R) (t_max : Z) (its : list Z) (o : optimizer) : option optimizer :=
  match its with [] => Some o | t :: r => match cosine min_lr t_max t o with Some o' => cosine_calls min_lr t_max r o' | None => None end end.
Fixpoint step_calls (gamma : R) (k : nat) (o : optimizer) : optimizer := match k with O => o | S k' => step_calls gamma k' (step_decay gamma o) end.
