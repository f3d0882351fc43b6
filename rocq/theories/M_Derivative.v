(** Model of derivatives of a model with respect to its inputs: finitediff and finitediff_sampling, qadence/backends/utils.py:191-243, and
    _torch_derivative and derivative, qadence/ml_tools/models.py:27-35 and 38-81, with QNN._derivative, 199-210 and 460-461.
    A tensor of shape (batch, features) is a function of the row and the column, a tensor of outputs a function of the row.
    torch.autograd.grad is an argument.  [None] stands for a raised exception.
    Simplification: numbers are reals; column indices are not negative. *)
From Coq Require Import Reals List Arith Bool.
Import ListNotations.
Open Scope R_scope.

Definition batch := nat -> nat -> R.
Definition outputs := nat -> R.
Definition badd (x y : batch) : batch := fun r j => x r j + y r j.
Definition bsub (x y : batch) : batch := fun r j => x r j - y r j.
Definition bscale (a : R) (x : batch) : batch := fun r j => a * x r j.

Section Derivative.
  (** torch.finfo(x.dtype).eps, the number of rows and of columns of x. *)
  Variable machine_eps : R.
  Variables rows cols : nat.

  (** utils.py:211-213. *)
  Definition default_eps (order : nat) : R := Rpower machine_eps (1 / (2 + INR order)).
  (** utils.py:218-220; an index beyond the columns raises IndexError. *)
  Definition direction (i : nat) (eps : R) : batch := fun _ j => if Nat.eqb j i then 0 + eps else 0.
  (** utils.py:191-233.  The recursive calls do not pass eps on. *)
  Fixpoint finitediff (f : batch -> outputs) (x : batch) (derivative_indices : list nat) (eps : option R) : option outputs :=
    match derivative_indices with
    | [] => None
    | i :: di =>
      let n := length derivative_indices in
      let e := match eps with Some e => e | None => default_eps n end in
      let _eps := 1 / e in
      if Nat.leb cols i then None else
      let ev := direction i e in
      if Nat.ltb 3 n || Nat.ltb 1 (length (nodup Nat.eq_dec derivative_indices)) then
        match finitediff f (badd x ev) di None, finitediff f (bsub x ev) di None with
        | Some a, Some b => Some (fun r => (a r - b r) * _eps / 2)
        | _, _ => None
        end
      else if Nat.eqb n 3 then
        Some (fun r => (f (badd x (bscale 2 ev)) r - 2 * f (badd x ev) r + 2 * f (bsub x ev) r - f (bsub x (bscale 2 ev)) r) * _eps ^ 3 / 2)
      else if Nat.eqb n 2 then Some (fun r => (f (badd x ev) r + f (bsub x ev) r - 2 * f x r) * _eps ^ 2)
      else Some (fun r => (f (badd x ev) r - f (bsub x ev) r) * _eps / 2)
    end.

  (** models.py:27-35.  [grad y x] is torch.autograd.grad(y, x, ones): for each entry of x the derivative of the sum of the rows of y. *)
  Variable grad : (batch -> outputs) -> batch -> batch.
  Fixpoint torch_derivative (y : batch -> outputs) (x : batch) (derivative_indices : list nat) : option outputs :=
    match derivative_indices with
    | [] => Some (y x)
    | idx :: di => if Nat.leb cols idx then None else torch_derivative (fun x r => grad y x r idx) x di
    end.

  (** models.py:199-210, 460-461 and 80-81. *)
  Inductive input_diff_mode := FD | AD.
  Definition derivative (mode : input_diff_mode) (out_features : nat) (ufa : batch -> outputs) (x : batch) (derivative_indices : list nat) : option outputs :=
    if Nat.eqb out_features 1 then
      match mode with FD => finitediff ufa x derivative_indices None | AD => torch_derivative ufa x derivative_indices end
    else None.
End Derivative.

(** utils.py:236-243.  [val] is the one number drawn by rand(1); [size] the number of entries of f(x). *)
Definition mean (l : list R) : R := fold_right Rplus 0 l / INR (length l).
Definition finitediff_sampling (f : R -> nat -> R) (size : nat) (x val eps : R) (num_samples : nat) : R :=
  let _finitediff v := map (fun k => (f (x + v) k - f (x - v) k) / (2 * v)) (seq 0 size) in
  mean (concat (flat_map (fun v => map (fun _ => _finitediff v) (seq 0 num_samples)) [val])).
