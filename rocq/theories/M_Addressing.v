(** Model of qadence/analog/addressing.py (AddressingPattern) and of the values it contributes to each qubit
    (analog/hamiltonian_terms.py:75-99, backends/pulser/pulses.py:73-89).  Parameters stand for their current value. *)
From Coq Require Import Reals List Bool Arith.
From Verif Require Import M_PSR.
Import ListNotations.
Open Scope R_scope.

(** addressing.py:16-19 *)
Definition GLOBAL_MAX_AMPLITUDE : R := 300.
Definition GLOBAL_MAX_DETUNING : R := 2 * PI * 2000.
Definition LOCAL_MAX_AMPLITUDE : R := 3.
Definition LOCAL_MAX_DETUNING : R := 2 * PI * 20.

(** addressing.py:24-25 *)
Definition sigmoid (x a b : R) : R := 1 / (1 + exp (- a * (x + b))).
(** sympy.Heaviside, whose value at 0 is 1/2 (also parameters.py:202-205). *)
Definition heaviside (x : R) : R := if Rlt_dec x 0 then 0 else if Rlt_dec 0 x then 1 else 1 / 2.

(** TWeight (addressing.py:21): a number, or a parameter (a string is turned into one) with its value. *)
Inductive weight : Type := WNum (r : R) | WPar (r : R).
Definition weights : Type := list (nat * weight).
Fixpoint get (d : weights) (i : nat) : option weight :=
  match d with [] => None | (k, v) :: r => if Nat.eqb k i then Some v else get r i end.

(** addressing.py:47-54 *)
Definition valid_weight (w : weight) : bool :=
  match w with WNum v => if Rle_dec 0 v then if Rle_dec v 1 then true else false else false | WPar _ => true end.
Definition validate_weights (d : weights) : bool := forallb (fun kv => valid_weight (snd kv)) d.
(** addressing.py:56-78 *)
Definition constrain_weight (w : option weight) : R :=
  match w with
  | None => 0
  | Some (WNum v) => v
  | Some (WPar v) => Rabs (v * (sigmoid v 20 1 - sigmoid v 20 (-1)))
  end.
Definition constrain_weights (n : nat) (d : weights) : list (nat * R) := map (fun i => (i, constrain_weight (get d i))) (seq 0 n).
(** addressing.py:80-98 *)
Definition constrain_amp (amp : R) : R := Rabs (amp * (heaviside (amp + GLOBAL_MAX_AMPLITUDE) - heaviside (amp - GLOBAL_MAX_AMPLITUDE))).
Definition constrain_det (det : R) : R := - Rabs (det * (heaviside (det + GLOBAL_MAX_DETUNING) - heaviside (det - GLOBAL_MAX_DETUNING))).
(** addressing.py:100-107 *)
Definition local_constraint (val : R) (ws : list (nat * R)) (max_val : R) : list (nat * R) :=
  map (fun kv => (fst kv, heaviside (val * snd kv) - heaviside (val * snd kv - max_val))) ws.
(** addressing.py:109-118 *)
Definition global_constraint (val : R) (ws : list (nat * R)) (max_val : R) : R :=
  let v := val * rsum (map snd ws) in heaviside v - heaviside (v - max_val).

Record pattern : Type := {
  p_n : nat;
  p_weights_amp : list (nat * R); p_weights_det : list (nat * R);
  p_amp : R; p_det : R;
  p_local_amp : list (nat * R); p_local_det : list (nat * R);
  p_global_amp : R; p_global_det : R }.

(** addressing.py:154-158: [max] of no keys is a ValueError. *)
Definition keys_ok (n : nat) (ws : list (nat * R)) : bool :=
  match ws with [] => false | _ => negb (existsb (fun kv => Nat.leb n (fst kv)) ws) end.
(** addressing.py:120-158 (the warnings do not change the result).  [None]: ValueError. *)
Definition make_pattern (n : nat) (wa wd : weights) (amp det : R) : option pattern :=
  if negb (validate_weights wa) then None else
  if negb (validate_weights wd) then None else
  let wa' := constrain_weights n wa in
  let wd' := constrain_weights n wd in
  let amp' := constrain_amp amp in
  let det' := constrain_det det in
  if negb (keys_ok n wa') then None else
  if negb (keys_ok n wd') then None else
  Some {| p_n := n; p_weights_amp := wa'; p_weights_det := wd'; p_amp := amp'; p_det := det';
          p_local_amp := local_constraint amp' wa' LOCAL_MAX_AMPLITUDE;
          p_local_det := local_constraint (- det') wd' LOCAL_MAX_DETUNING;
          p_global_amp := global_constraint amp' wa' GLOBAL_MAX_AMPLITUDE;
          p_global_det := global_constraint (- det') wd' GLOBAL_MAX_DETUNING |}.

Fixpoint rget (d : list (nat * R)) (i : nat) : option R :=
  match d with [] => None | (k, v) :: r => if Nat.eqb k i then Some v else rget r i end.
(** pulses.py:73-89 (and the coefficients of hamiltonian_terms.py:88-98): the amplitude and detuning qubit [i] receives;
    [None]: KeyError. *)
Definition qubit_amp (p : pattern) (i : nat) : option R :=
  match rget (p_weights_amp p) i, rget (p_local_amp p) i with
  | Some w, Some l => Some (p_global_amp p * p_amp p * (w * l))
  | _, _ => None
  end.
Definition qubit_det (p : pattern) (i : nat) : option R :=
  match rget (p_weights_det p) i, rget (p_local_det p) i with
  | Some w, Some l => Some (p_global_det p * p_det p * (w * l))
  | _, _ => None
  end.
