(** Model of the information content of a loss landscape: qadence/ml_tools/information/information_content.py:16-339 (InformationContent).
    Simplifications: numbers are real numbers; tensors are lists (views keep the order of the elements); the random variations of the parameters are given, as
    is the loss, a function of the values of the parameters by name; NormalDist().inv_cdf is given, with [None] for a probability it refuses; the caches of
    calculate_IC and q_value are left out, as they do not change the values; the warning is left out; [None] stands for a raised exception.  A quotient 0/0,
    for fewer than three variations, is nan in the code, which the comparison with 1e-4 turns into no contribution; here it is 0, with the same effect. *)
From Coq Require Import String Reals List Arith Bool ZArith.
From Coquelicot Require Import Coquelicot.
From Coq Require Import List.
From Verif Require Import M_Tensor M_Transpile.
Import ListNotations.
Open Scope R_scope.

Definition rltb (a b : R) : bool := if Rlt_dec a b then true else false.
Definition rsum (l : list R) : R := fold_right Rplus 0 l.
(** information_content.py:124: numel. *)
Definition numel (shape : list nat) : nat := fold_right Nat.mul 1%nat shape.
(** information_content.py:122-124. *)
Definition total_params (shapes : list (string * list nat)) : nat := fold_right Nat.add 0%nat (map (fun s => numel (snd s)) shapes).
(** information_content.py:125. *)
Definition n_variations (variation_multiple : nat) (shapes : list (string * list nat)) : nat := (variation_multiple * total_params shapes)%nat.
(** information_content.py:140: the product of an empty tensor is the floating point number 1.0, which cannot be used in a slice. *)
Definition param_size (shape : list nat) : option nat := match shape with [] => None | _ => Some (numel shape) end.
(** information_content.py:130-146 and 157, for one variation: the values of the parameters by name. *)
Fixpoint reshape_row (shapes : list (string * list nat)) (start : nat) (row : list R) : option (list (string * list R)) :=
  match shapes with
  | [] => Some []
  | (name, shape) :: r =>
      obind (param_size shape) (fun size =>
      obind (reshape_row r (start + size) row) (fun rest => Some ((name, firstn size (skipn start row)) :: rest)))
  end.
Definition reshape_param_variations (shapes : list (string * list nat)) (variations : list (list R)) : option (list (list (string * list R))) :=
  osequence (map (reshape_row shapes 0) variations).
(** information_content.py:148-161. *)
Definition batched_loss (loss : list (string * list R) -> R) (shapes : list (string * list nat)) (variations : list (list R)) : option (list R) :=
  option_map (map loss) (reshape_param_variations shapes variations).
(** information_content.py:163-177. *)
Definition distance (a b : list R) : R := sqrt (rsum (map (fun xy => (snd xy - fst xy) ^ 2) (combine a b))).
Fixpoint steps {A} (l : list A) : list (A * A) := match l with a :: (b :: _) as r => (a, b) :: steps r | _ => [] end.
Definition randomized_finite_der (losses : list R) (variations : list (list R)) : list R :=
  map (fun lv => let '((l0, l1), (v0, v1)) := lv in (l1 - l0) / (distance v0 v1 + 1 / 100000000)) (combine (steps losses) (steps variations)).
(** information_content.py:192-194: the second assignment overwrites the first. *)
Definition discretize (eps d : R) : Z := if rltb d (- eps) then (-1)%Z else if rltb eps d then 1%Z else 0%Z.
(** information_content.py:206-226, for one epsilon. *)
Definition count_transitions (a b : Z) (l : list Z) : nat := length (filter (fun xy => Z.eqb (fst xy) a && Z.eqb (snd xy) b) (steps l)).
Definition transition_kinds : list (Z * Z) := [(1, 0); (1, -1); (0, 1); (0, -1); (-1, 0); (-1, 1)]%Z.
Definition transition_probabilities (l : list Z) : list R :=
  map (fun ab => INR (count_transitions (fst ab) (snd ab) l) / INR (length l - 1)) transition_kinds.
(** information_content.py:235-240, for one epsilon. *)
Definition ic_of (probs : list R) : R := rsum (map (fun p => if rltb (1 / 10000) p then - p * ln p else 0) probs) / ln 6.
Definition calculate_IC (derivatives epsilons : list R) : list R :=
  map (fun eps => ic_of (transition_probabilities (map (discretize eps) derivatives))) epsilons.
(** information_content.py:244-252: torch.max returns the first of several maxima. *)
Fixpoint argmax (l : list (R * R)) : option (R * R) :=
  match l with [] => None | a :: r => match argmax r with None => Some a | Some b => if rltb (fst a) (fst b) then Some b else Some a end end.
Definition max_IC (derivatives epsilons : list R) : option (R * R) := argmax (combine (calculate_IC derivatives epsilons) epsilons).
(** information_content.py:254-266: the minimum of an empty tensor is refused. *)
Fixpoint rmin_list (l : list R) : option R := match l with [] => None | a :: r => match rmin_list r with None => Some a | Some b => Some (Rmin a b) end end.
Definition sensitivity_IC (derivatives epsilons : list R) (eta : R) : option R :=
  rmin_list (map snd (filter (fun ie => rltb (fst ie) eta) (combine (calculate_IC derivatives epsilons) epsilons))).
(** information_content.py:289-296. *)
Definition q_grid : list R := map (fun i => 1 / 1000 + INR i * ((16667 / 100000 - 1 / 1000) / 9999)) (seq 0 10000).
Definition H_curve (x : R) : R := - 4 * x * ln x / ln 6 - 2 * (1 / 2 - 2 * x) * ln (1 / 2 - 2 * x) / ln 6.
Fixpoint argmin_by (f : R -> R) (a : R) (l : list R) : R := match l with [] => a | b :: r => if rltb (f b) (f a) then argmin_by f b r else argmin_by f a r end.
Definition q_value (H : R) : R := argmin_by (fun x => Rabs (H_curve x - H)) (hd 0 q_grid) (tl q_grid).
(** Division of floating point numbers in Python. *)
Definition pydiv (a b : R) : option R := if Req_EM_T b 0 then None else Some (a / b).

Section WithNormal.
  Variable inv_cdf : R -> option R.
  (** information_content.py:298-323. *)
  Definition get_grad_norm_bounds_max_IC (m : nat) (derivatives epsilons : list R) : option (R * R) :=
    obind (max_IC derivatives epsilons) (fun ie => let '(max_ic, epsilon_m) := ie in
    obind (inv_cdf (1 - 2 * q_value max_ic)) (fun z1 => obind (pydiv (epsilon_m * sqrt (INR m)) z1) (fun lower =>
    obind (inv_cdf (1 / 2 * (1 + 2 * q_value max_ic))) (fun z2 => obind (pydiv (epsilon_m * sqrt (INR m)) z2) (fun upper => Some (lower, upper)))))).
  (** information_content.py:325-339. *)
  Definition get_grad_norm_bounds_sensitivity_IC (m : nat) (derivatives epsilons : list R) (eta : R) : option R :=
    obind (sensitivity_IC derivatives epsilons eta) (fun epsilon_sensitivity =>
    obind (inv_cdf (1 - 3 * eta / 2)) (fun z => pydiv (epsilon_sensitivity * sqrt (INR m)) z)).
End WithNormal.
