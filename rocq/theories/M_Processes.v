(** Model of how a training is spread over processes: [Accelerator.__init__], [distribute], [_spawn_method] and
    [worker] (qadence/ml_tools/train_utils/accelerator.py:61-89, 117-147, 150-184, 208-240), [Distributor] with
    [setup_process_rank_environment] and [start_process_group] (train_utils/distribution.py:42-83, 85-190) and the two
    ways of execution (train_utils/execution.py:151-168, 233-300, 324-385, 388-425).  Processes are modelled up to the
    point where the process group is created; addresses are left out, ports are numbers. *)
From Coq Require Import NArith List Arith Bool Lia.
Import ListNotations.
Open Scope nat_scope.

(** The environment variables read and written; LOCAL_RANK may hold the text "None". *)
Record env := { WORLD_SIZE : option nat; LOCAL_RANK : option (option nat); RANK : option nat; MASTER_PORT : option N }.
Definition clean : env := {| WORLD_SIZE := None; LOCAL_RANK := None; RANK := None; MASTER_PORT := None |}.
(** What does not change while a program runs: whether torchrun started it (TORCHELASTIC_RUN_ID), the number of GPUs of
    a node, and the SLURM variables (execution.py:151-168). *)
Record machine := { torchrun : bool; gpus : nat; num_nodes : nat; node_rank : nat; job_id : option N }.
(** execution.py:166-168 [cores_per_node]. *)
Definition cores_per_node (m : machine) : nat := if 0 <? gpus m then gpus m else 1.
(** compute_setup. *)
Inductive setup := Auto | Gpu | Cpu.
(** execution.py:170-186 [_set_compute]: whether GPUs are used; None is the RuntimeError. *)
Definition uses_gpu (m : machine) (s : setup) : option bool :=
  match s with Gpu => if 0 <? gpus m then Some true else None | Auto => Some (0 <? gpus m) | Cpu => Some false end.

(** An accelerator: [on_gpu], nprocs, world_size, and the free port found when it was made. *)
Record accelerator := { on_gpu : bool; nprocs : nat; world_size : nat; port : N }.
Definition or_else {X} (o : option X) (d : X) : X := match o with Some x => x | None => d end.
(** accelerator.py:85-89 with distribution.py:71-82: construction; [free] is the port found. *)
Definition new_accelerator (m : machine) (e : env) (s : setup) (n : nat) (free : N) : option accelerator :=
  match uses_gpu m s with
  | Some g => let n := if torchrun m then 1 else n in Some {| on_gpu := g; nprocs := n; world_size := or_else (WORLD_SIZE e) n; port := free |}
  | None => None
  end.

(** A process: the ranks and the world size it works with. *)
Record process := { rank : nat; local_rank : option nat; world : nat }.
(** distribution.py:176: whether it joins a process group. *)
Definition grouped (p : process) : bool := 1 <? world p.
(** execution.py:253-265 and 340-352 [get_local_rank]; None is the ValueError of int("None"). *)
Definition get_local_rank (a : accelerator) (e : env) (p : nat) : option (option nat) :=
  if on_gpu a then match LOCAL_RANK e with None => Some (Some p) | Some (Some l) => Some (Some l) | Some None => None end else Some None.
(** execution.py:233-251 and 326-338 [get_rank], with the local rank found. *)
Definition get_rank (m : machine) (a : accelerator) (e : env) (p : nat) (local : option nat) : nat :=
  if on_gpu a then
    if torchrun m then or_else (RANK e) p
    else node_rank m * cores_per_node m + or_else local 0
  else p.
(** execution.py:302-318 and 377-385 [get_master_port]. *)
Definition get_master_port (m : machine) (a : accelerator) (e : env) : N :=
  match MASTER_PORT e with
  | Some p => p
  | None => if torchrun m then 12364%N else match job_id m with None => port a | Some j => (12000 + j mod 5000)%N end
  end.
(** distribution.py:126-165 [setup_process_rank_environment]: the process, its environment afterwards. *)
Definition setup_process (m : machine) (a : accelerator) (e : env) (p : nat) : option (process * env) :=
  match get_local_rank a e p with
  | None => None
  | Some l =>
      let w := or_else (WORLD_SIZE e) (nprocs a) in let r := get_rank m a e p l in
      Some ({| rank := r; local_rank := l; world := w |},
            {| WORLD_SIZE := Some w; LOCAL_RANK := Some l; RANK := Some r; MASTER_PORT := Some (get_master_port m a e) |})
  end.

(** accelerator.py:208-240 [_spawn_method]: the processes a fit runs on this node and the environment of the program
    afterwards.  Spawned processes start with a copy of the environment; their failure is the failure of the fit. *)
Fixpoint all_some {X} (l : list (option X)) : option (list X) :=
  match l with [] => Some [] | Some x :: r => option_map (cons x) (all_some r) | None :: _ => None end.
Definition fit (m : machine) (a : accelerator) (e : env) : option (list process * env) :=
  if negb (torchrun m) && (1 <? world_size a) then
    let n := if 1 <? num_nodes m then nprocs a / num_nodes m else nprocs a in
    option_map (fun ps => (ps, e)) (all_some (map (fun i => option_map fst (setup_process m a e i)) (seq 0 n)))
  else option_map (fun pe => ([fst pe], snd pe)) (setup_process m a e 0).

(** What a program does: make trainers and fit them. *)
Inductive action := Make (s : setup) (n : nat) (free : N) | Run (i : nat).
Record state := { environment : env; made : list accelerator; fits : list (accelerator * list process) }.
Definition start (e : env) : state := {| environment := e; made := []; fits := [] |}.
Definition act (m : machine) (st : state) (x : action) : option state :=
  match x with
  | Make s n free => option_map (fun a => {| environment := environment st; made := made st ++ [a]; fits := fits st |}) (new_accelerator m (environment st) s n free)
  | Run i =>
      match nth_error (made st) i with
      | None => None
      | Some a => option_map (fun r => {| environment := snd r; made := made st; fits := fits st ++ [(a, fst r)] |}) (fit m a (environment st))
      end
  end.
Fixpoint program (m : machine) (st : state) (xs : list action) : option state :=
  match xs with [] => Some st | x :: r => match act m st x with Some st => program m st r | None => None end end.

(** The same program started on every node of a cluster, by SLURM, with a clean environment: all processes of a fit of a
    trainer for [n] processes. *)
Definition on_node (m : machine) (k : nat) : machine :=
  {| torchrun := torchrun m; gpus := gpus m; num_nodes := num_nodes m; node_rank := k; job_id := job_id m |}.
Definition cluster_fit (m : machine) (s : setup) (n : nat) (free : N) : option (list process) :=
  option_map (@concat process) (all_some (map (fun k =>
    match new_accelerator (on_node m k) clean s n free with
    | Some a => option_map fst (fit (on_node m k) a clean)
    | None => None
    end) (seq 0 (num_nodes m)))).
(** Started by torchrun, which sets the variables of every process. *)
Definition torchrun_env (w r l : nat) (p : N) : env := {| WORLD_SIZE := Some w; LOCAL_RANK := Some (Some l); RANK := Some r; MASTER_PORT := Some p |}.
Definition torchrun_fit (m : machine) (s : setup) (n : nat) (free : N) (es : list env) : option (list process) :=
  option_map (@concat process) (all_some (map (fun e =>
    match new_accelerator m e s n free with Some a => option_map fst (fit m a e) | None => None end) es)).
