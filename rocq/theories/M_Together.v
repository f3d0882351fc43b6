(** Model of processes that train together: the collective operations of accelerator.py ([all_reduce_dict]) and the parts of
    trainer.py that use them ([stop_training], [_aggregate_result], [_train_epochs], [run_training]), and the preparation of
    batches (accelerator.py [prepare_batch], ml_tools/data.py [data_to_device]).

    A process is a program that takes part in reductions; torch.distributed matches the n-th reduction of every process with
    the n-th reductions of the others.  Simplifications: losses and metrics are real scalars, marked as integer tensors or
    not; the gradient averaging of DistributedDataParallel is left out; validation is not modelled separately (it aggregates
    in the same way). *)
From Coq Require Import String Reals List Arith Bool.
From Coq Require Import List.
Import ListNotations.
Open Scope R_scope.

(** * Reductions *)
Inductive op : Type := Max | Sum.
Inductive prog (A : Type) : Type :=
| Done (a : A)
| Raise                                            (* an exception *)
| Reduce (o : op) (v : R) (next : R -> prog A).    (* torch.distributed.all_reduce *)
Arguments Done {A}. Arguments Raise {A}. Arguments Reduce {A}.
(** What all processes receive. *)
Definition combine_values (o : op) (vs : list R) : R :=
  match o with
  | Sum => fold_right Rplus 0 vs
  | Max => match vs with [] => 0 | v :: r => fold_right Rmax v r end
  end.
(** All processes run to their ends: at every point all of them are in a reduction of the same kind, or all are done. *)
Inductive runs {A} : list (prog A) -> list A -> Prop :=
| runs_done : forall l, runs (map Done l) l
| runs_reduce : forall o (vs : list R) (ks : list (R -> prog A)) l,
    length vs = length ks ->
    runs (map (fun k => k (combine_values o vs)) ks) l ->
    runs (map (fun vk => Reduce o (fst vk) (snd vk)) (combine vs ks)) l.

(** A metric: its value, and whether it is a tensor of integers. *)
Definition value : Type := (R * bool)%type.
Inductive how : Type := HMax | HSum | HMean.
(** accelerator.py:427-460 [all_reduce_dict]; [ws] = None when torch.distributed is not initialised, otherwise the world
    size.  With the mean of an integer tensor [tensor /= world_size] raises after the reduction. *)
Fixpoint all_reduce_dict {A} (ws : option nat) (h : how) (d : list (string * value)) (k : list (string * value) -> prog A) : prog A :=
  match ws with
  | None => k d
  | Some n =>
      match d with
      | [] => k []
      | (key, (v, int)) :: r =>
          match h with
          | HMax => Reduce Max v (fun x => all_reduce_dict ws h r (fun rest => k ((key, (x, int)) :: rest)))
          | HSum => Reduce Sum v (fun x => all_reduce_dict ws h r (fun rest => k ((key, (x, int)) :: rest)))
          | HMean => Reduce Sum v (fun x => if int then Raise else all_reduce_dict ws h r (fun rest => k ((key, (x / INR n, int)) :: rest)))
          end
      end
  end.

(** trainer.py:698-711 [stop_training]. *)
Definition stop_training {A} (ws : option nat) (flag : bool) (k : bool -> prog A) : prog A :=
  all_reduce_dict ws HMax [("indicator"%string, (if flag then 1 else 0, true))] (fun d =>
    match d with (_, (x, _)) :: _ => k (if Rlt_dec 0 x then true else false) | [] => Raise end).

(** trainer.py:690: the dictionary [{"loss": loss, **metrics}]; a metric "loss" replaces the value. *)
Fixpoint dict_get (key : string) (d : list (string * value)) : option value :=
  match d with [] => None | (k', v) :: r => if String.eqb k' key then Some v else dict_get key r end.
Definition with_loss (loss : value) (m : list (string * value)) : list (string * value) :=
  match dict_get "loss" m with
  | Some v => ("loss"%string, v) :: filter (fun kv => negb (String.eqb (fst kv) "loss")) m
  | None => ("loss"%string, loss) :: m
  end.
Definition batch : Type := (value * list (string * value))%type.       (* loss, metrics *)
(** trainer.py:667-672 [_modify_batch_end_loss_metrics] in the phase "train". *)
Fixpoint put (key : string) (v : value) (m : list (string * value)) : list (string * value) :=
  match m with [] => [(key, v)] | (k', v') :: r => if String.eqb k' key then (key, v) :: r else (k', v') :: put key v r end.
Definition modified (b : batch) : batch :=
  (fst b, put "train_loss" (fst b) (map (fun kv => (("train_" ++ fst kv)%string, snd kv)) (snd b))).
(** trainer.py:675-696 [_aggregate_result]. *)
Definition aggregate {A} (ws : option nat) (all_reduce_metrics : bool) (b : batch) (k : batch -> prog A) : prog A :=
  if all_reduce_metrics then
    all_reduce_dict ws HMean (with_loss (fst b) (snd b)) (fun d =>
      match dict_get "loss" d with
      | Some l => k (l, filter (fun kv => negb (String.eqb (fst kv) "loss")) d)
      | None => Raise
      end)
  else k b.

(** * The training of one process *)
(** What the process meets in an epoch: the losses and metrics of its batches, after how many of them the user interrupts
    it ([None]: not at all), and whether a callback requests a stop. *)
Record epoch_of : Type := { ep_batches : list batch; ep_interrupt : option nat; ep_stop : bool }.
Section Train.
  Variable ws : option nat.
  Variable all_reduce_metrics : bool.
  (** trainer.py:478-489 [run_training]: the reported batches. *)
  Fixpoint run_training {A} (bs : list batch) (acc : list batch) (k : list batch -> prog A) : prog A :=
    match bs with
    | [] => k acc
    | b :: r => aggregate ws all_reduce_metrics (modified b) (fun x => run_training r (acc ++ [x]) k)
    end.
  (** trainer.py:431-463 [_train_epochs]: what is reported for each epoch that was completed. *)
  Fixpoint train_epochs (es : list epoch_of) (flag : bool) (acc : list (list batch)) : prog (list (list batch)) :=
    match es with
    | [] => Done acc
    | e :: r =>
        stop_training ws flag (fun stop =>
          if stop then Done acc
          else match ep_interrupt e with
               | Some n => run_training (firstn n (ep_batches e)) [] (fun _ => train_epochs r true acc)
               | None => run_training (ep_batches e) [] (fun xs => train_epochs r (flag || ep_stop e) (acc ++ [xs]))
               end)
    end.
End Train.

(** * Batches *)
(** Tensors are kept with their type: [None] = as the data has it. *)
Inductive dtype : Type := Float | Double | Int | Complex.
Inductive data (T : Type) : Type :=
| Tensor (d : dtype) (x : T)
| Missing                                     (* Python's None *)
| ListD (l : list (data T))
| DictD (l : list (string * data T))
| TupleD (l : list (data T))
| Other.                                      (* numbers, strings, objects *)
Arguments Tensor {T}. Arguments Missing {T}. Arguments ListD {T}. Arguments DictD {T}. Arguments TupleD {T}. Arguments Other {T}.
Section Batches.
  Variable T : Type.
  Variable cast : dtype -> dtype -> T -> T.    (* [x.to(dtype)] from one type to another *)
  Variable target : option dtype.              (* accelerator.execution.data_dtype *)
  Definition to_device (d : dtype) (x : T) : data T :=
    match target with None => Tensor d x | Some t => Tensor t (cast d t x) end.
  Fixpoint all_some {X} (l : list (option X)) : option (list X) :=
    match l with [] => Some [] | o :: r => match o, all_some r with Some x, Some xs => Some (x :: xs) | _, _ => None end end.
  (** data.py:118-141 [data_to_device]: [None] for the ValueError (tuples have no implementation). *)
  Fixpoint data_to_device (x : data T) : option (data T) :=
    match x with
    | Missing => Some Missing
    | Tensor d v => Some (to_device d v)
    | ListD l => option_map ListD (all_some (map data_to_device l))
    | DictD l => option_map DictD (all_some (map (fun kv => option_map (fun y => (fst kv, y)) (data_to_device (snd kv))) l))
    | TupleD _ | Other => None
    end.
  (** accelerator.py:389-425 [prepare_batch]. *)
  Definition prepare_batch (b : data T) : option (data T) :=
    match b with
    | Missing => Some Missing
    | DictD l => option_map DictD (all_some (map (fun kv => option_map (fun y => (fst kv, y)) (data_to_device (snd kv))) l))
    | TupleD l | ListD l => option_map TupleD (all_some (map data_to_device l))
    | Tensor d v => data_to_device (Tensor d v)
    | Other => Some Missing
    end.
End Batches.
