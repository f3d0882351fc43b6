(** Model of the data a trainer uses: [Trainer.fit], [run_training], [run_validation], [test] and [_batch_iter]
    (qadence/ml_tools/trainer.py:290-350, 464-490, 535-561, 577-604, 623-647), the loader setters and
    [_compute_num_batches] (ml_tools/train_utils/base_trainer.py:232-336), [DictDataLoader] and
    [InfiniteTensorDataset] (ml_tools/data.py:43-89), and the preparation of loaders for several processes
    (ml_tools/train_utils/accelerator.py:242-387).  A torch DataLoader is given by its dataset, the order in which its
    sampler goes through the dataset in each pass, its batch size and [drop_last]; DistributedSampler is modelled after
    its documentation.  Moving batches to a device does not change them. *)
From Coq Require Import String List Arith Bool Lia.
From Coq Require Import List.
Import ListNotations.
Open Scope nat_scope.

Section Batches.
  Variable A : Type.

  (** TensorDataset, InfiniteTensorDataset, any other dataset. *)
  Inductive kind := Tensors | Infinite | Other.
  (** torch.utils.data.DataLoader; [order e] are the samples in the order of pass [e]. *)
  Record loader := { sort : kind; dataset : list A; order : nat -> list A; batch_size : nat; drop_last : bool }.
  (** A loader, a DictDataLoader with at least one entry, or None. *)
  Inductive source := Absent | One (l : loader) | Dict (first : string * loader) (rest : list (string * loader)).
  (** What a loss function is given. *)
  Inductive given := Nothing | Batch (xs : list A) | Keyed (bs : list (string * list A)).

  (** torch's BatchSampler: groups of [b]. *)
  Fixpoint chunks (fuel b : nat) (l : list A) : list (list A) :=
    match fuel, l with
    | 0, _ | _, [] => []
    | S fuel, _ => firstn b l :: chunks fuel b (skipn b l)
    end.
  (** One pass over a finite dataset. *)
  Definition finite_pass (l : loader) (e : nat) : list (list A) :=
    let cs := chunks (length (order l e)) (batch_size l) (order l e) in
    if drop_last l then filter (fun c => length c =? batch_size l) cs else cs.
  (** data.py:79-89: the first [m] samples of an endless pass (an empty dataset never yields). *)
  Definition endless (m : nat) (xs : list A) : list A := firstn m (concat (repeat xs m)).
  (** islice(dataloader, k): trainer.py:646. *)
  Definition first_batches (k : nat) (l : loader) (e : nat) : list (list A) :=
    match sort l with
    | Infinite => chunks (k * batch_size l) (batch_size l) (endless (k * batch_size l) (order l e))
    | _ => firstn k (finite_pass l e)
    end.
  (** data.py:49-54 [DictDataLoader]: a step asks every loader for its next batch, and the first one that has none ends
      the iteration. *)
  Fixpoint dict_steps (k : nat) (ls : list (string * list (list A))) : list (list (string * list A)) :=
    match k with
    | 0 => []
    | S k =>
        if forallb (fun l => match snd l with [] => false | _ => true end) ls
        then map (fun l => (fst l, hd [] (snd l))) ls :: dict_steps k (map (fun l => (fst l, tl (snd l))) ls)
        else []
    end.

  (** base_trainer.py:314-336 [_compute_num_batches]; [m] is max_batches. *)
  Definition count_of (m : option nat) (l : loader) : nat :=
    match sort l with
    | Tensors =>
        let n := (length (dataset l) + batch_size l - 1) / batch_size l in
        match m with Some m => Nat.min m n | None => n end
    | _ => 1
    end.
  Definition num_batches (m : option nat) (s : source) : nat :=
    match s with Absent => 1 | One l => count_of m l | Dict (_, l) _ => count_of m l end.

  (** trainer.py:623-647 [_batch_iter]. *)
  Definition batch_iter (s : source) (k e : nat) : list given :=
    match s with
    | Absent => repeat Nothing k
    | One l => map Batch (first_batches k l e)
    | Dict l ls => map Keyed (dict_steps k (map (fun d => (fst d, first_batches k (snd d) e)) (l :: ls)))
    end.

  (** ** Loaders for several processes *)
  Definition every (w r : nat) (xs : list A) : list A :=
    map snd (filter (fun ix => fst ix mod w =? r) (combine (seq 0 (length xs)) xs)).
  (** torch's DistributedSampler: the dataset, filled up to a multiple of the number of replicas with its own beginning,
      of which a replica takes every [w]-th sample. *)
  Definition shard (w r : nat) (xs : list A) : list A :=
    every w r (firstn ((length xs + w - 1) / w * w) (concat (repeat xs w))).
  (** accelerator.py:342-387 [_prepare_dataloader]: [w] processes; [r] is the local rank, [shuffled] the order of the
      sampler, which is the same in every pass since its set_epoch is not called; [drop_last] is not carried over. *)
  Definition prepare_loader (w r : nat) (shuffled : list A -> list A) (l : loader) : loader :=
    if 1 <? w then
      match sort l with
      | Infinite => {| sort := Infinite; dataset := dataset l; order := order l; batch_size := batch_size l; drop_last := false |}
      | k => {| sort := k; dataset := dataset l; order := fun _ => shard w r (shuffled (dataset l)); batch_size := batch_size l; drop_last := false |}
      end
    else l.
  (** accelerator.py:321-340 [_prepare_data]. *)
  Definition prepare (w r : nat) (shuffled : list A -> list A) (s : source) : source :=
    match s with
    | Absent => Absent
    | One l => One (prepare_loader w r shuffled l)
    | Dict l ls => let p := fun d => (fst d, prepare_loader w r shuffled (snd d)) in Dict (p l) (map p ls)
    end.

  (** ** The trainer *)
  Record trainer := { max_batches : option nat; train : source; val : source; testing : source; n_train : nat; n_val : nat; n_test : nat }.
  (** base_trainer.py:232-288: the setters. *)
  Definition set_train (t : trainer) (s : source) : trainer :=
    {| max_batches := max_batches t; train := s; val := val t; testing := testing t; n_train := num_batches (max_batches t) s; n_val := n_val t; n_test := n_test t |}.
  Definition set_val (t : trainer) (s : source) : trainer :=
    {| max_batches := max_batches t; train := train t; val := s; testing := testing t; n_train := n_train t; n_val := num_batches (max_batches t) s; n_test := n_test t |}.
  Definition set_test (t : trainer) (s : source) : trainer :=
    {| max_batches := max_batches t; train := train t; val := val t; testing := s; n_train := n_train t; n_val := n_val t; n_test := num_batches (max_batches t) s |}.
  (** base_trainer.py:105-118: construction. *)
  Definition new_trainer (m : option nat) (tr va te : source) : trainer :=
    {| max_batches := m; train := tr; val := va; testing := te; n_train := num_batches m tr; n_val := num_batches m va; n_test := num_batches m te |}.
  Definition present (s : source) : bool := match s with Absent => false | _ => true end.
  (** trainer.py:304-308 and 333-338: the loaders after the setup of a fit in one process of [w]. *)
  Definition fit_setup (w r : nat) (shuffled : list A -> list A) (t : trainer) (tr va : source) : trainer :=
    let t := if present tr then set_train t tr else t in
    let t := if present va then set_val t va else t in
    set_val (set_train t (prepare w r shuffled (train t))) (prepare w r shuffled (val t)).
  (** trainer.py:481 [run_training] and 552 [run_validation]: the data of epoch [e]. *)
  Definition training_data (t : trainer) (e : nat) : list given := batch_iter (train t) (n_train t) e.
  Definition validation_data (t : trainer) (e : nat) : list given := batch_iter (val t) (n_val t) e.
  (** trainer.py:577-604 [test]: the trainer afterwards and the data of the test. *)
  Definition test (t : trainer) (s : source) (e : nat) : trainer * list given :=
    let t := if present s then set_test t s else t in (t, batch_iter s (n_train t) e).

  (** Calls made on one trainer. *)
  Inductive call := Fit (tr va : source) | Test (s : source) (e : nat).
  Definition called (t : trainer) (c : call) : trainer :=
    match c with Fit tr va => fit_setup 1 0 (fun xs => xs) t tr va | Test s e => fst (test t s e) end.
End Batches.
