(** Model of the two modes of optimisation of a trainer (with gradients, or gradient-free) and of the ways to switch between them:
    ml_tools/train_utils/base_trainer.py ([use_grad], [set_use_grad], the setter of [optimizer], [enable_grad_opt],
    [disable_grad_opt]).

    Simplifications: one trainer; optimisers are known by their kind and a number; the flag [use_grad] of the callback manager, which
    nothing reads, is left out; arguments of other types (TypeError) are left out. *)
From Coq Require Import Reals List Arith Bool.
From Coq Require Import List.
Import ListNotations.

Inductive optimizer : Type := Torch (id : nat) | Nevergrad (id : nat).
(** The class attribute and the trainer: its own attribute [_use_grad] ([None]: not set, the class attribute is seen), its optimizer,
    [ng_params], the parameters of its model; the budgets of the Nevergrad optimisers. *)
Record world : Type := {
  class_flag : bool;
  own_flag : option bool;
  opt : option optimizer;
  ng_params : option (list R);
  params : list R;
  budget : nat -> option nat
}.
(** base_trainer.py:126-136 [use_grad]. *)
Definition mode (w : world) : bool := match own_flag w with Some b => b | None => class_flag w end.
(** base_trainer.py:138-151, the setter of [use_grad]. *)
Definition set_mode (b : bool) (w : world) : world :=
  {| class_flag := class_flag w; own_flag := Some b; opt := opt w; ng_params := ng_params w; params := params w; budget := budget w |}.
(** base_trainer.py:153-163 [set_use_grad]. *)
Definition set_use_grad (b : bool) (w : world) : world :=
  {| class_flag := b; own_flag := own_flag w; opt := opt w; ng_params := ng_params w; params := params w; budget := budget w |}.
(** base_trainer.py:199-221, the setter of [optimizer]; [false] when it raises. *)
Definition set_optimizer (max_iter : nat) (o : option optimizer) (w : world) : world * bool :=
  let store w := {| class_flag := class_flag w; own_flag := own_flag w; opt := o; ng_params := ng_params w; params := params w; budget := budget w |} in
  match o with
  | None => (store w, true)
  | Some (Torch _) => if mode w then (store w, true) else (w, false)
  | Some (Nevergrad i) =>
      if mode w then (w, false)
      else (store {| class_flag := class_flag w; own_flag := own_flag w; opt := opt w; ng_params := Some (params w); params := params w;
                     budget := fun j => if Nat.eqb i j then Some max_iter else budget w j |}, true)
  end.
(** base_trainer.py:399-420 [enable_grad_opt] ([b] = true) and 422-442 [disable_grad_opt] ([b] = false) as context managers around a
    body, which may do anything and may raise. *)
Definition grad_opt (max_iter : nat) (b : bool) (given : option optimizer) (body : world -> world * bool) (w : world) : world * bool :=
  let original_mode := mode w in
  let original_optimizer := opt w in
  let w1 := set_mode b w in
  let (w2, entered) := set_optimizer max_iter (match given with Some o => Some o | None => opt w1 end) w1 in
  let (w3, ok) := if entered then body w2 else (w2, false) in
  let w4 := set_mode original_mode w3 in
  let (w5, restored) := set_optimizer max_iter original_optimizer w4 in
  (w5, (ok && restored)%bool).

(** What a user can do with a trainer besides setting the flags. *)
Inductive cmd : Type :=
| SetOptimizer (o : option optimizer)
| Train (f : list R -> list R) (ok : bool)          (* a fit: changes the model, may raise *)
| Within (b : bool) (given : option optimizer) (body : list cmd).
Section Exec.
  Variable max_iter : nat.
  Fixpoint exec (c : cmd) (w : world) : world * bool :=
    match c with
    | SetOptimizer o => set_optimizer max_iter o w
    | Train f ok => ({| class_flag := class_flag w; own_flag := own_flag w; opt := opt w; ng_params := ng_params w; params := f (params w); budget := budget w |}, ok)
    | Within b given body =>
        grad_opt max_iter b given ((fix run (cs : list cmd) (w : world) : world * bool :=
          match cs with [] => (w, true) | c :: r => let (w', ok) := exec c w in if ok then run r w' else (w', false) end) body) w
    end.
  (** A sequence of statements: an exception ends it. *)
  Fixpoint run (cs : list cmd) (w : world) : world * bool :=
    match cs with [] => (w, true) | c :: r => let (w', ok) := exec c w in if ok then run r w' else (w', false) end.
End Exec.
