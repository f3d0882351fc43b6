(** Hyperparameters of successive trainings with one configuration: which of them reach the tracking tool.
    qadence/ml_tools/train_utils/config_manager.py (_handle_hyperparams, _filter_tb_hyperparams), callbacks/callbackmanager.py
    (initialize_callbacks), callbacks/callback.py (LogHyperparameters), trainer.py (_fit_setup).

    A dictionary is a list of keys and values in order of insertion.  A value is its Python type and an element of an arbitrary type; of
    subclasses only bool (of int) occurs, and it is allowed itself.  One process trains (rank 0), and every training reaches its end.
    What the tools do with the dictionary they are given is not modelled. *)
From Coq Require Import String List Bool.
Import ListNotations.

Inductive pytype : Type := TInt | TFloat | TStr | TBool | TTensor | TOther (name : string).
(** types.py [ExperimentTrackingTool] *)
Inductive tool : Type := Tensorboard | Mlflow.

Section Hyperparams.
  Variable V : Type.
  Definition value : Type := pytype * V.
  Definition dict : Type := list (string * value).

  (** config_manager.py:130 [isinstance(value, tb_allowed_hyperparams_types)] *)
  Definition allowed (v : value) : bool := match fst v with TInt | TFloat | TStr | TBool | TTensor => true | TOther _ => false end.
  (** config_manager.py:131-135 *)
  Definition keys_to_remove (d : dict) : list string := map fst (filter (fun e => negb (allowed (snd e))) d).
  (** [dict.pop(key)]; None is a KeyError. *)
  Fixpoint pop (key : string) (d : dict) : option dict :=
    match d with
    | [] => None
    | e :: r => if String.eqb (fst e) key then Some r else option_map (cons e) (pop key r)
    end.
  (** config_manager.py:140-141 *)
  Fixpoint pops (keys : list string) (d : dict) : option dict :=
    match keys with
    | [] => Some d
    | k :: r => match pop k d with Some d' => pops r d' | None => None end
    end.
  (** config_manager.py:122-141 [_filter_tb_hyperparams]: the dictionary of the configuration itself is changed. *)
  Definition filter_tb_hyperparams (d : dict) : option dict := match keys_to_remove d with [] => Some d | keys => pops keys d end.
  (** config_manager.py:108-120 [_handle_hyperparams] *)
  Definition handle_hyperparams (t : tool) (d : dict) : option dict :=
    match d, t with
    | [], _ => Some d
    | _, Tensorboard => filter_tb_hyperparams d
    | _, Mlflow => Some d
    end.
  (** One call of fit (trainer.py:316-331): the configuration is initialised, then the callbacks (callbackmanager.py:109-110), one of which
      gives the dictionary to the writer at the end (callback.py:357-367).  The new dictionary and what the tool is given, if anything. *)
  Definition fit (t : tool) (d : dict) : option (dict * option dict) :=
    match handle_hyperparams t d with
    | None => None
    | Some d' => Some (d', match d' with [] => None | _ => Some d' end)
    end.
  (** The same with the writer the trainer keeps: it is made when the configuration is set (base_trainer.py:311, callbackmanager.py:59-61), and
      setting [tracking_tool] later does not change it.  Which tool is given what. *)
  Definition fit_kept (writer t : tool) (d : dict) : option (dict * option (tool * dict)) :=
    match fit t d with None => None | Some (d', x) => Some (d', option_map (pair writer) x) end.
  (** Successive trainings with the same configuration, whose [tracking_tool] the user may set before making the trainer of each of them:
      what each tool is given. *)
  Fixpoint fits (ts : list tool) (d : dict) : option (dict * list (option dict)) :=
    match ts with
    | [] => Some (d, [])
    | t :: r => match fit t d with
                | None => None
                | Some (d', x) => match fits r d' with None => None | Some (d'', xs) => Some (d'', x :: xs) end
                end
    end.
End Hyperparams.
