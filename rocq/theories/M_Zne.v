(** Model of qadence/mitigations/analog_zne.py:24-39 [zne]. *)
From Coq Require Import Reals List Arith.
Import ListNotations.
Open Scope R_scope.

Fixpoint osequence {A} (l : list (option A)) : option (list A) :=
  match l with [] => Some [] | Some a :: r => match osequence r with Some r' => Some (a :: r') | None => None end | None :: _ => None end.

(** numpy.poly1d called on a number: coefficients from the highest power down (Horner). *)
Definition poly1d (coeffs : list R) (x : R) : R := fold_left (fun acc c => acc * x + c) coeffs 0.

Section Zne.
  (** numpy.polyfit(x, y, deg): coefficients from the highest power down. *)
  Variable polyfit : list R -> list R -> nat -> list R.

  (** analog_zne.py:24-39.  [None]: an index out of range ([dataset[0]] of an empty dataset, [s[p]] of a shorter row). *)
  Definition zne_one (noise_levels : list R) (dataset : list (list R)) (p : nat) : option R :=
    match osequence (map (fun s => nth_error s p) dataset) with
    | Some rearranged => Some (poly1d (polyfit noise_levels rearranged (length noise_levels - 1)) 0)
    | None => None
    end.
  Definition zne (noise_levels : list R) (zne_datasets : list (list (list R))) : option (list (list R)) :=
    osequence (map (fun dataset =>
      match dataset with
      | [] => None
      | d0 :: _ => osequence (map (zne_one noise_levels dataset) (seq 0 (length d0)))
      end) zne_datasets).
End Zne.
