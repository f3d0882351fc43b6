(** Model of InfiniteTensorDataset: qadence/ml_tools/data.py:57-89, and of get_parameters / set_parameters: ml_tools/parameters.py:8-46. *)
From Coq Require Import List Arith Bool.
Import ListNotations.

(** A tensor of the dataset: the list of its rows. *)
Section Dataset.
  Variable row : Type.
  Definition tensor := list row.
  (** random.shuffle: an arbitrary function of the list and of how often it was called before. *)
  Variable shuffle : nat -> list nat -> list nat.

  (** [indices] is one list object shared by all iterators.  An iterator (a Python generator) has either not run yet ([None]) or is about to take position [Some p] of
      the list of indices; [shuffles] counts the calls of random.shuffle. *)
  Record ds := { tensors : list tensor; indices : list nat; iters : list (option nat); shuffles : nat }.
  (** data.py:76-78 [__init__]; [None]: no tensors (IndexError). *)
  Definition new_ds (ts : list tensor) : option ds :=
    match ts with [] => None | t :: _ => Some {| tensors := ts; indices := seq 0 (length t); iters := []; shuffles := 0 |} end.

  Inductive op := NewIter | Next (i : nat).
  (** What a call of next gives: the rows of one sample and its index, an error, or no answer (it loops forever). *)
  Inductive out := Sample (idx : nat) (rows : list (option row)) | SizeError | NoSuchIter | Loops | Created.
  Definition sizes_agree (ts : list tensor) : bool :=
    match ts with [] => false | t :: r => forallb (fun u => Nat.eqb (length u) (length t)) r end.
  Fixpoint set_iter (i : nat) (v : option nat) (l : list (option nat)) : list (option nat) :=
    match l, i with [], _ => [] | _ :: r, O => v :: r | x :: r, S j => x :: set_iter j v r end.
  (** data.py:86-88: the rest of the generator from position [p] of the inner loop. *)
  Definition yield_at (d : ds) (i p : nat) : ds * out :=
    match nth_error (indices d) p with
    | Some idx => ({| tensors := tensors d; indices := indices d; iters := set_iter i (Some (S p)) (iters d); shuffles := shuffles d |},
                   Sample idx (map (fun t => nth_error t idx) (tensors d)))
    | None => match nth_error (indices d) 0 with
              | Some idx => ({| tensors := tensors d; indices := indices d; iters := set_iter i (Some 1) (iters d); shuffles := shuffles d |},
                             Sample idx (map (fun t => nth_error t idx) (tensors d)))
              | None => (d, Loops)
              end
    end.
  (** data.py:80-89 [__iter__] is a generator function: nothing happens before the first next. *)
  Definition step (d : ds) (o : op) : ds * out :=
    match o with
    | NewIter => ({| tensors := tensors d; indices := indices d; iters := iters d ++ [None]; shuffles := shuffles d |}, Created)
    | Next i => match nth_error (iters d) i with
                | None => (d, NoSuchIter)
                | Some (Some p) => yield_at d i p
                | Some None => if sizes_agree (tensors d) then
                      yield_at {| tensors := tensors d; indices := shuffle (shuffles d) (indices d); iters := iters d; shuffles := S (shuffles d) |} i 0
                    else (d, SizeError)
                end
    end.
  Fixpoint run (d : ds) (ops : list op) : ds * list (op * out) :=
    match ops with [] => (d, []) | o :: r => let '(d1, x) := step d o in let '(d2, xs) := run d1 r in (d2, (o, x) :: xs) end.
End Dataset.
Arguments step {row}. Arguments run {row}. Arguments new_ds {row}. Arguments tensors {row}. Arguments indices {row}. Arguments iters {row}. Arguments shuffles {row}.
Arguments Sample {row}. Arguments SizeError {row}. Arguments NoSuchIter {row}. Arguments Loops {row}. Arguments Created {row}. Arguments sizes_agree {row}. Arguments yield_at {row}.

(** torch parameters: requires_grad, shape and the entries in row-major order.  A well-formed one has as many entries as its shape says. *)
Section Parameters.
  Variable V : Type.
  Record param := { requires_grad : bool; shape : list nat; entries : list V }.
  Definition numel (p : param) : nat := length (entries p).
  (** parameters.py:8-18 [get_parameters]: torch.concat of an empty list raises ([None]). *)
  Definition get_parameters (m : list param) : option (list V) :=
    match filter requires_grad m with [] => None | ps => Some (concat (map entries ps)) end.
  (** parameters.py:21-41 [set_parameters]: the parameters after the loop and whether it finished.  A slice past the end is shorter; reshape (or the assignment of a
      0-dimensional parameter) raises when the slice has the wrong number of entries, leaving the earlier parameters written. *)
  Fixpoint set_from (m : list param) (theta : list V) (idx : nat) : list param * bool :=
    match m with
    | [] => ([], true)
    | p :: r =>
        if requires_grad p then
          let n := numel p in
          let slice := firstn n (skipn idx theta) in
          if Nat.eqb (length slice) n then
            let '(r', ok) := set_from r theta (idx + n) in ({| requires_grad := true; shape := shape p; entries := slice |} :: r', ok)
          else (p :: r, false)
        else let '(r', ok) := set_from r theta idx in (p :: r', ok)
    end.
  Definition set_parameters (m : list param) (theta : list V) : list param * bool := set_from m theta 0.
  (** parameters.py:44-46 [num_parameters] *)
  Definition num_parameters (m : list param) : option nat := option_map (@length V) (get_parameters m).
End Parameters.
Arguments set_parameters {V}. Arguments get_parameters {V}. Arguments set_from {V}. Arguments requires_grad {V}. Arguments entries {V}. Arguments shape {V}. Arguments numel {V}. Arguments num_parameters {V}.
