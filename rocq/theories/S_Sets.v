(** Small specifications shared by several properties: what a Python set iteration may do. *)
From Coq Require Import List.

(** The iteration order of a set built from [l] lists exactly the elements of [l], each once. *)
Definition set_order (set_iter : list nat -> list nat) : Prop :=
  forall l, NoDup (set_iter l) /\ (forall q, In q (set_iter l) <-> In q l).
