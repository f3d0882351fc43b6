(** Model of qadence/constructors/qft.py, digital strategy. *)
From Coq Require Import String Reals List Arith Bool.
From Coquelicot Require Import Coquelicot.
From Coq Require Import List.
From Verif Require Import S_Ops M_Block M_Transpile.
Import ListNotations.
Open Scope R_scope.

Inductive strategy := DIGITAL | SDAQC | BDAQC | ANALOG.
(** qft.py:109-111: the angle, a complex tensor. *)
Definition qft_angle (inverse : bool) (layer j : nat) : expr :=
  ECst (RtoC ((if inverse then -1 else 1) * 2 * PI / 2 ^ (j - layer + 1))).
(** [support[i]]: [None] is IndexError. *)
Definition at_ {A} (support : list nat) (i : nat) (f : nat -> A) : option A := omap f (nth_error support i).
(** operations/control_ops.py: CPHASE(control, target, angle). *)
Definition CPHASE (c t : nat) (e : expr) : block := BPCtrl [c] (BRot RPhase t e).
(** qft.py:92-115. *)
Definition qft_layer_digital (n : nat) (support : list nat) (layer : nat) (inverse : bool) : option block :=
  let range := seq (layer + 1) (n - (layer + 1)) in
  match osequence (map (fun j => match nth_error support j, nth_error support layer with
                                 | Some a, Some b => Some (CPHASE a b (qft_angle inverse layer j)) | _, _ => None end)
                       (if inverse then rev range else range)), at_ support layer (BPrim PH) with
  | Some rots, Some h => Some (BChain (if inverse then rots ++ [h] else h :: rots))
  | _, _ => None
  end.
(** qft.py:80-82. *)
Definition qft_swaps (n : nat) (support : list nat) : option (list block) :=
  osequence (map (fun i => match nth_error support i, nth_error support (n - i - 1) with Some a, Some b => Some (BSwap a b) | _, _ => None end) (seq 0 (n / 2))).
(** qft.py:51-84 (tags left out), with the layer function that line 67 picks.  [None]: AssertionError, IndexError, or an exception of the layer function. *)
Definition qft_of (layer_func : list nat -> nat -> bool -> option block) (n : nat) (support : option (list nat)) (inverse reverse_in swaps_out : bool) : option block :=
  let support := match support with Some l => l | None => seq 0 n end in
  if Nat.ltb n (length support) then None else
  let support := if reverse_in then rev support else support in
  let layers := if inverse then rev (seq 0 n) else seq 0 n in
  match osequence (map (fun layer => layer_func support layer inverse) layers) with
  | None => None
  | Some ls =>
      let circ := BChain ls in
      if swaps_out then
        match qft_swaps n support with
        | None => None
        | Some sw => Some (BChain (if inverse then sw ++ [circ] else circ :: sw))
        end
      else Some circ
  end.
(** qft.py:15-84 for the strategies other than sDAQC, which is [qft_sdaqc] of M_QftDaqc.v ([None] here).  The layer functions of bDAQC and
    analog always raise NotImplementedError (qft.py:241-251). *)
Definition qft (n : nat) (support : option (list nat)) (inverse reverse_in swaps_out : bool) (s : strategy) : option block :=
  match s with
  | DIGITAL => qft_of (qft_layer_digital n) n support inverse reverse_in swaps_out
  | SDAQC => None
  | BDAQC | ANALOG => qft_of (fun _ _ _ => None) n support inverse reverse_in swaps_out
  end.
