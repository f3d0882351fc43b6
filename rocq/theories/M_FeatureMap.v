(** Model of qadence/constructors/feature_maps.py:21-199 (feature_map) and 202-235 (exp_fourier_feature_map). *)
From Coq Require Import Reals List Arith Bool Ratan.
Import ListNotations.
Open Scope R_scope.

(** types.py BasisSet, or a callable. *)
Inductive fm_type : Type := FOURIER | CHEBYSHEV | Custom (f : R -> R).

(** feature_maps.py:21-27. *)
Definition set_range (fm : fm_type) : R * R :=
  match fm with FOURIER => (0, 2 * PI) | CHEBYSHEV => (-1, 1) | Custom _ => (0, 1) end.

(** Python min / max of a pair. *)
Definition pmin (p : R * R) : R := Rmin (fst p) (snd p).
Definition pmax (p : R * R) : R := Rmax (fst p) (snd p).

(** math.isclose(scaling, 1.0) with its default relative tolerance 1e-9 and no absolute tolerance. *)
Definition isclose_one (s : R) : bool :=
  if Rle_dec (Rabs (s - 1)) (1 / 1000000000 * Rmax (Rabs s) (Rabs 1)) then true else false.

(** feature_maps.py:37-61: the value of the scaled parameter when the feature has the value [x];
    [None] for the division by zero of an empty feature range. *)
Definition fm_parameter_scaling (fm : fm_type) (feature_range target_range : option (R * R)) (x : R) : option R :=
  let fr := match feature_range with None => set_range fm | Some r => r end in
  let tr := match target_range with None => set_range fm | Some r => r end in
  if Req_EM_T (pmax fr - pmin fr) 0 then None else
  let scaling := (pmax tr - pmin tr) / (pmax fr - pmin fr) in
  let shift := pmin tr - pmin fr * scaling in
  Some (if isclose_one scaling then x + shift else scaling * x + shift).

(** feature_maps.py:64-82. *)
Definition fm_parameter_func (fm : fm_type) : R -> R :=
  match fm with FOURIER => fun x => x | CHEBYSHEV => acos | Custom f => f end.

(** feature_maps.py:30-34 and 85-107. *)
Inductive reupload : Type := CONSTANT | TOWER | EXP | CustomScaling (f : nat -> R).
Definition rs_func (r : reupload) (i : nat) : R :=
  match r with CONSTANT => 1 | TOWER => INR (i + 1) | EXP => 2 ^ i | CustomScaling f => f i end.

(** feature_maps.py:158-195: the gates as (qubit, angle) in order; [None] for a support of the wrong length or an empty
    feature range.  The kind of rotation is the argument [op] for all of them.  [weights] gives the values of the
    trainable parameters prefix_i if a prefix is used. *)
Definition feature_map (n_qubits : nat) (support : option (list nat)) (fm : fm_type) (rs : reupload)
    (feature_range target_range : option (R * R)) (multiplier : option R) (weights : option (nat -> R)) (x : R) : option (list (nat * R)) :=
  match (match support with None => Some (seq 0 n_qubits) | Some s => if Nat.eqb (length s) n_qubits then Some s else None end),
        fm_parameter_scaling fm feature_range target_range x with
  | Some support, Some scaled =>
      Some (map (fun iq => let '(i, qubit) := iq in
             let fparam := match weights with None => scaled | Some w => w i * scaled end in
             (qubit, match multiplier with None => 1 | Some m => m end * rs_func rs i * fm_parameter_func fm fparam))
           (combine (seq 0 (length support)) support))
  | _, _ => None
  end.

(** feature_maps.py:221-235: the rotation layer of the exponential Fourier map. *)
Definition exp_fourier_layer (n_qubits : nat) (support : option (list nat)) (feature_range : option (R * R)) (x : R) : option (list (nat * R)) :=
  let fr := match feature_range with None => (0, 2 ^ n_qubits) | Some r => r end in
  let s := match support with None => seq 0 n_qubits | Some s => s end in
  feature_map n_qubits (Some s) FOURIER EXP (Some fr) (Some (0, 2 * PI)) None None x.
