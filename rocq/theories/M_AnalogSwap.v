(** Model of AnalogSWAP, qadence/operations/analog.py:35-57.  The numbers of the code (floating point) are real numbers here; [None] stands for a
    raised exception. *)
From Coq Require Import String Reals List Arith Bool.
From Coquelicot Require Import Coquelicot.
From Coq Require Import List.
From Verif Require Import S_Ops M_QubitSupport M_Block M_BlockOps M_Tensor.
Import ListNotations.
Open Scope R_scope.

Section WithSetOrder.
  Variable set_iter : list nat -> list nat.
  (** analog.py:51: [(I(q) - Z(q)) / 2.0]. *)
  Definition occupation (q : nat) : option block := op_truediv (op_sub (BPrim PI_ q) (BPrim PZ q)) (RtoC 2).
  Definition num (r : R) : expr := ECst (RtoC r).
  (** analog.py:50-56. *)
  Definition swap_generator (control target : nat) : option block :=
    obind (occupation control) (fun nc =>
    obind (occupation target) (fun nt =>
    obind (mk_kron set_iter [nc; nt]) (fun k =>
    Some (op_add (op_add (op_add (op_add (op_scale k (num 4))
      (op_scale (BPrim PX control) (num (2 / 3 * sqrt 2))))
      (op_scale (BPrim PX target) (num (2 / 3 * sqrt 2))))
      (op_scale (BPrim PZ control) (num (1 + sqrt 5 / 3))))
      (op_scale (BPrim PZ target) (num (1 + sqrt 5 / 3))))))).
  (** analog.py:48-57, with the duration given, and with the default one. *)
  Definition AnalogSWAP_for (control target : nat) (parameter : expr) : option block :=
    obind (swap_generator control target) (fun g => Some (BEvo g parameter)).
  Definition AnalogSWAP (control target : nat) : option block := AnalogSWAP_for control target (num (3 * PI / 4)).
End WithSetOrder.
