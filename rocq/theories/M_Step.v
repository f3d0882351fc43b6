(** One step of an optimisation and the loss that is reported: qadence/ml_tools/optimize_step.py, the parts of
    trainer.py and train_utils/base_trainer.py around it, loss/loss.py.

    Torch's gradients, its optimisers and Nevergrad are arguments: an optimiser of Torch is a program that evaluates
    its closure any number of times at parameters of its choice, one of Nevergrad is a state with [tell] and [ask].
    Simplifications: real numbers instead of floats; one process; all trainable parameters belong to the optimiser. *)
From Coq Require Import String Reals List Arith Bool.
From Coq Require Import List.
From Verif Require Import M_Dataset.
Import ListNotations.
Open Scope R_scope.

Definition vec : Type := list R.
Definition metrics : Type := list (string * R).

(** * With gradients: optimize_step.py:15-56 *)
(** [optimizer.step(closure)]: what it does next may depend on every loss and gradient it has seen. *)
Inductive stepper : Type :=
| Finish (p : vec)
| Evaluate (p : vec) (next : R -> vec -> stepper).
Section Gradient.
  Variable loss : vec -> R * metrics.       (* loss_fn(model, xs) for the parameters of the model *)
  Variable grad : vec -> vec.               (* what loss.backward() adds to the gradients *)
  (** Gradients of the parameters: [None] after zero_grad (torch sets them to None). *)
  Definition backward (g : option vec) (d : vec) : option vec :=
    match g with None => Some d | Some h => Some (map (fun ab => fst ab + snd ab) (combine h d)) end.
  (** 44-52 [closure] at the parameters [p]: gradients before, then the loss with its metrics and the gradients after. *)
  Definition closure (g : option vec) (p : vec) : (R * metrics) * option vec :=
    let zeroed : option vec := None in
    (loss p, backward zeroed (grad p)).
  (** 54: the optimiser runs; [seen] is the nonlocal pair (loss, metrics), [None] before the first evaluation. *)
  Fixpoint run_stepper (s : stepper) (g : option vec) (seen : option (R * metrics)) : vec * option (R * metrics) * option vec :=
    match s with
    | Finish p => (p, seen, g)
    | Evaluate p next =>
        let (lm, g') := closure g p in
        run_stepper (next (fst lm) (match g' with Some h => h | None => [] end)) g' (Some lm)
    end.
  (** 42-56 [optimize_step]: parameters, (loss, metrics) returned, gradients left behind. *)
  Definition optimize_step (s : stepper) (g : option vec) : vec * option (R * metrics) * option vec := run_stepper s g None.
End Gradient.

(** * Without gradients: optimize_step.py:59-88 *)
Section GradientFree.
  Variables Opt Data : Type.
  Variable tell : Opt -> vec -> R -> Opt.
  Variable ask : Opt -> Opt * vec.
  Variable loss_fn : list (param R) -> Data -> R.

  (** A trainer with use_grad=False; [told] records the calls of tell: the model at that moment, the data, the
      candidate and the loss. *)
  Record trainer : Type := {
    model : list (param R); optimizer : Opt; ng_params : vec; told : list (list (param R) * Data * vec * R)
  }.
  (** optimize_step.py:83-88 and trainer.py:523-532; [None] when set_parameters raises. *)
  Definition batch (t : trainer) (d : Data) : option trainer :=
    let l := loss_fn (model t) d in
    let (o, c) := ask (tell (optimizer t) (ng_params t) l) in
    let (m, ok) := set_parameters (model t) c in
    if ok then Some {| model := m; optimizer := o; ng_params := c; told := told t ++ [(model t, d, ng_params t, l)] |} else None.
  (** base_trainer.py:200-224, the setter of optimizer; [None] when the model has no trainable parameter. *)
  Definition assign_optimizer (t : trainer) (o : Opt) : option trainer :=
    option_map (fun p => {| model := model t; optimizer := o; ng_params := p; told := told t |}) (get_parameters (model t)).
  (** callbackmanager.py:183-203: what a checkpoint brings: the model's parameters and the optimiser. *)
  Definition load_checkpoint (t : trainer) (ck : option (list (param R) * Opt)) : option trainer :=
    match ck with
    | None => Some t
    | Some (m, o) => assign_optimizer {| model := m; optimizer := optimizer t; ng_params := ng_params t; told := told t |} o
    end.
  Fixpoint batches (t : trainer) (ds : list Data) : option trainer :=
    match ds with [] => Some t | d :: r => match batch t d with None => None | Some t' => batches t' r end end.
  (** trainer.py:316-340 and 401-490: load, assign the prepared optimiser again, train. *)
  Definition fit (t : trainer) (ck : option (list (param R) * Opt)) (ds : list Data) : option trainer :=
    match load_checkpoint t ck with
    | None => None
    | Some t1 => match assign_optimizer t1 (optimizer t1) with None => None | Some t2 => batches t2 ds end
    end.
  (** What can happen to a trainer: a call of fit, or the user changes the parameters of the model. *)
  Inductive event : Type := Fit (ck : option (list (param R) * Opt)) (ds : list Data) | Change (m : list (param R)).
  Definition happen (t : trainer) (e : event) : option trainer :=
    match e with
    | Fit ck ds => fit t ck ds
    | Change m => Some {| model := m; optimizer := optimizer t; ng_params := ng_params t; told := told t |}
    end.
  Fixpoint history (t : trainer) (es : list event) : option trainer :=
    match es with [] => Some t | e :: r => match happen t e with None => None | Some t' => history t' r end end.
End GradientFree.

(** * What is reported: trainer.py:649-673 and 713-800 *)
(** A dictionary assignment. *)
Fixpoint assign (k : string) (v : R) (m : metrics) : metrics :=
  match m with [] => [(k, v)] | (k', v') :: r => if String.eqb k' k then (k, v) :: r else (k', v') :: assign k v r end.
Fixpoint lookup (k : string) (m : metrics) : option R :=
  match m with [] => None | (k', v) :: r => if String.eqb k' k then Some v else lookup k r end.
(** 667-672 [_modify_batch_end_loss_metrics] in the phase [ph] ("train", "val" or "test"). *)
Definition modify (ph : string) (lm : R * metrics) : R * metrics :=
  (fst lm, assign (ph ++ "_loss")%string (fst lm) (map (fun kv => ((ph ++ "_" ++ fst kv)%string, snd kv)) (snd lm))).
Definition mean (l : list R) : R := fold_right Rplus 0 l / INR (length l).
(** 769-788 [build_optimize_result] of the batches of an epoch: [None] when a batch lacks a metric of the first one. *)
Fixpoint gather (k : string) (bs : list (R * metrics)) : option (list R) :=
  match bs with
  | [] => Some []
  | b :: r => match lookup k (snd b), gather k r with Some v, Some vs => Some (v :: vs) | _, _ => None end
  end.
Fixpoint averages (ks : list string) (bs : list (R * metrics)) : option metrics :=
  match ks with
  | [] => Some []
  | k :: r => match gather k bs, averages r bs with Some vs, Some m => Some ((k, mean vs) :: m) | _, _ => None end
  end.
Inductive reported : Type := NoResult | Reported (loss : R) (m : metrics) | MissingMetric.
Definition build_result (bs : list (R * metrics)) : reported :=
  match bs with
  | [] => NoResult
  | b :: _ => match averages (map fst (snd b)) bs with Some m => Reported (mean (map fst bs)) m | None => MissingMetric end
  end.

(** * Losses: loss/loss.py:9-31 *)
(** [nn.MSELoss()] on outputs of shape (n, 1) and targets of shape (n, 1), or of shape (n,), which torch broadcasts
    to n rows and n columns. *)
Definition square (x : R) : R := x * x.
Definition mse_columns (outputs targets : vec) : R := mean (map (fun ab => square (fst ab - snd ab)) (combine outputs targets)).
Definition mse_column_row (outputs targets : vec) : R := mean (map (fun ab => square (fst ab - snd ab)) (list_prod outputs targets)).
