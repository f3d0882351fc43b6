(** Successive trainings: the folder a call of [Trainer.fit] works in, what it loads from it and what it leaves there.
    qadence/ml_tools/train_utils/config_manager.py, callbacks/callbackmanager.py (start_training, initialize_callbacks),
    callbacks/callback.py (_should_call, SaveCheckpoint, SaveBestCheckpoint), callbacks/saveload.py and trainer.py
    (fit, _fit_setup, _train, _train_epochs).

    The parameters of a model are a type argument; an epoch is an arbitrary function on them; one process trains
    (rank 0 of world size 1).  The name of a checkpoint file is its iteration or "best": that different iterations have
    different names and that the search finds the largest is C33; one class of models and one device are assumed. *)
From Coq Require Import List Arith Bool Lia.
Import ListNotations.

(** Folders: "./", a folder named by the user, or a subfolder of a root, named [<id>_<timestamp>_<PID>]
    (config_manager.py:101-104). *)
Inductive path : Type := Dot | Given (name : nat) | Sub (root run_id timestamp pid : nat).
Definition path_dec : forall a b : path, {a = b} + {a <> b}.
Proof. decide equality; apply Nat.eq_dec. Defined.

(** The fields of TrainConfig (ml_tools/config.py:44-200) used here. *)
Record config : Type := {
  root : nat;
  per_run : bool;              (* create_subfolder_per_run *)
  log_folder : path;
  subfolders : list (nat * nat * nat);   (* run id, timestamp, PID *)
  max_iter : nat;
  checkpoint_every : nat;
  val_every : nat;
  best_only : bool             (* checkpoint_best_only *)
}.
(** The clock and the process a call of fit sees. *)
Record clock : Type := { now : nat; pid : nat }.

(** config_manager.py:95-106 [_add_subfolder]. *)
Definition add_subfolder (c : config) (k : clock) : config :=
  {| root := root c; per_run := per_run c; log_folder := log_folder c;
     subfolders := subfolders c ++ [(S (length (subfolders c)), now k, pid k)];
     max_iter := max_iter c; checkpoint_every := checkpoint_every c; val_every := val_every c; best_only := best_only c |}.
(** [root_folder_path / self.config._subfolders[-1]]; lines 78 and 87 are reached with a non-empty list only. *)
Definition last_subfolder (c : config) : path :=
  match last (subfolders c) (0, 0, 0) with (i, t, p) => Sub (root c) i t p end.
Definition set_folder (c : config) (f : path) : config :=
  {| root := root c; per_run := per_run c; log_folder := f; subfolders := subfolders c;
     max_iter := max_iter c; checkpoint_every := checkpoint_every c; val_every := val_every c; best_only := best_only c |}.
(** config_manager.py:49-93 [_initialize_folder], [_createlog_folder]: the new configuration and [_added_new_subfolder]. *)
Definition initialize_folder (c : config) (k : clock) : config * bool :=
  if per_run c then let c' := add_subfolder c k in (set_folder c' (last_subfolder c'), true)
  else match subfolders c with
       | _ :: _ => (set_folder c (log_folder c), false)
       | [] => match log_folder c with
               | Dot => let c' := add_subfolder c k in (set_folder c' (last_subfolder c'), true)
               | _ => (set_folder c (log_folder c), false)
               end
       end.

Section Runs.
  Variable P : Type.

  (** The checkpoints in a folder: those with a number, and the one called "best". *)
  Record files : Type := { numbered : list (nat * P); best : option P }.
  Definition no_files : files := {| numbered := []; best := None |}.
  Definition disk : Type := path -> files.
  Definition put (d : disk) (f : path) (x : files) : disk := fun g => if path_dec g f then x else d g.
  (** saveload.py:64-115 [write_checkpoint]: a file with the same name is overwritten. *)
  Definition save_number (x : files) (n : nat) (p : P) : files :=
    {| numbered := filter (fun e => negb (Nat.eqb (fst e) n)) (numbered x) ++ [(n, p)]; best := best x |}.
  Definition save_best (x : files) (p : P) : files := {| numbered := numbered x; best := Some p |}.

  (** saveload.py:18-43 [get_latest_checkpoint_name] and 118-152 [load_model]: one file is taken whatever its name, of
      several the one with the largest number; the iteration is 0 when there is nothing to load. *)
  Inductive loaded : Type := Nothing | Number (n : nat) (p : P) | Best (p : P).
  Definition largest (l : list (nat * P)) : option (nat * P) :=
    fold_left (fun acc e => match acc with None => Some e | Some a => if Nat.ltb (fst a) (fst e) then Some e else acc end) l None.
  Definition load (x : files) : loaded :=
    match largest (numbered x), best x with
    | None, None => Nothing
    | None, Some p => Best p
    | Some (n, p), _ => Number n p
    end.

  (** What a trainer keeps between calls of fit (trainer.py:269-271). *)
  Record trainer : Type := { params : P; global_step : nat; current_epoch : nat }.
  (** callbackmanager.py:182-203 (start_training). *)
  Definition start (t : trainer) (x : files) (added : bool) : trainer :=
    if added then t
    else match load x with
         | Nothing => {| params := params t; global_step := 0; current_epoch := 0 |}
         | Number n p => {| params := p; global_step := n; current_epoch := n |}
         | Best p => {| params := p; global_step := global_step t; current_epoch := current_epoch t |}
         end.

  (** What an epoch meets: it is run; training was asked to stop before it; it is interrupted from the keyboard. *)
  Inductive fate : Type := Go | Stop | Interrupt.
  (** What a call of fit does to the parameters: the effect of each epoch, its fate, and whether the validation
      criterion accepts the model at an epoch. *)
  Record training : Type := { epoch : nat -> P -> P; fates : nat -> fate; improves : nat -> bool }.

  (** callback.py:155-175 [_should_call] at the end of an epoch. *)
  Definition due (every iteration : nat) : bool :=
    negb (Nat.eqb every 0) && negb (Nat.eqb iteration 0) && Nat.eqb (iteration mod every) 0.

  (** The checkpoints written, in order. *)
  Inductive write : Type := WriteNumber (n : nat) (p : P) | WriteBest (p : P).
  Definition perform (x : files) (w : write) : files :=
    match w with WriteNumber n p => save_number x n p | WriteBest p => save_best x p end.

  (** trainer.py:434-461, the epochs [e], [e+1], ... ([n] of them), with the callbacks of
      callbackmanager.py:88-92 at train_epoch_end and val_epoch_end.  Simplification: an interruption falls between the
      start of an epoch and its callbacks; the effect of the interrupted epoch is arbitrary too. *)
  Fixpoint epochs (c : config) (w : training) (n e : nat) (t : trainer) : trainer * list write :=
    match n with
    | O => (t, [])
    | S m =>
        match fates w e with
        | Stop => (t, [])
        | Interrupt => ({| params := epoch w e (params t); global_step := global_step t; current_epoch := e |}, [])
        | Go =>
            let p := epoch w e (params t) in
            let r := epochs c w m (S e) {| params := p; global_step := global_step t; current_epoch := e |} in
            (fst r,
             (if negb (best_only c) && due (checkpoint_every c) e then [WriteNumber e p] else [])
             ++ (if best_only c && due (val_every c) e && improves w e then [WriteBest p] else [])
             ++ snd r)
        end
    end.

  (** trainer.py:316-399 after the folder is known and the checkpoint loaded: the validation before training
      (349-352), the callbacks of train_start (callbackmanager.py:82-86), the epochs (374-377), the callbacks of train_end
      (callbackmanager.py:117-119). *)
  Definition train (c : config) (w : training) (t : trainer) : trainer * list write :=
    let val := negb (Nat.eqb (val_every c) 0) in
    let r := epochs c w (S (max_iter c)) (global_step t) t in
    (fst r,
     (if best_only c && val && due (val_every c) (current_epoch t) && improves w (current_epoch t) then [WriteBest (params t)] else [])
     ++ (if val && negb (best_only c) then [WriteNumber (current_epoch t) (params t)] else [])
     ++ snd r
     ++ (if negb (best_only c) && negb (Nat.eqb (checkpoint_every c) 0) then [WriteNumber (current_epoch (fst r)) (params (fst r))] else [])).

  (** A call of fit (trainer.py:287-314): the clock, what the epochs do, the configuration, the trainer. *)
  Record job : Type := { at_ : clock; work : training; conf : config; who : trainer }.
  Definition conf_after (j : job) : config := fst (initialize_folder (conf j) (at_ j)).
  Definition folder (j : job) : path := log_folder (conf_after j).
  (** The trainer as it is when the first epoch begins, and when fit returns; the checkpoints written. *)
  Definition begins (j : job) (d : disk) : trainer := start (who j) (d (folder j)) (snd (initialize_folder (conf j) (at_ j))).
  Definition ends (j : job) (d : disk) : trainer := fst (train (conf_after j) (work j) (begins j d)).
  Definition written (j : job) (d : disk) : list write := snd (train (conf_after j) (work j) (begins j d)).
  (** The disk when the process dies after [k] checkpoints; a call that returns has written all of them. *)
  Definition crashed (j : job) (k : nat) (d : disk) : disk :=
    put d (folder j) (fold_left perform (firstn k (written j d)) (d (folder j))).
  Definition fit (j : job) (d : disk) : disk := put d (folder j) (fold_left perform (written j d) (d (folder j))).
End Runs.
