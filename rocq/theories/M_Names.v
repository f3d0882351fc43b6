(** Python's f"{n}" for a non-negative integer, as a string. *)
From Coq Require Import String Ascii List Arith.
From Verif Require Import M_Checkpoint.
Import ListNotations.

Fixpoint of_chars (l : list ascii) : string := match l with [] => EmptyString | c :: r => String c (of_chars r) end.
Definition dec (n : nat) : string := of_chars (digits n n).
