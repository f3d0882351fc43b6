(** Model of the choice of shifts for the multi-gap parameter-shift rule: qadence/backends/agpsr_utils.py ([variance], [calculate_optimal_shifts]).

    torch.linalg.solve, torch.linalg.pinv and scipy.optimize.minimize are function arguments.  The cache of [calculate_optimal_shifts] (its key
    includes the identity of the tensor of gaps) is not modelled. *)
From Coq Require Import Reals List Arith.
From Verif Require Import M_PSR.
Import ListNotations.
Open Scope R_scope.

(** agpsr_utils.py:24 and parameter_shift_rules.py:152 *)
Definition shift_matrix (shifts gaps : list R) : list (list R) := map (fun s => map (fun g => 4 * sin (s * g / 2)) gaps) shifts.
(** torch.matmul of two vectors, and of a row with a matrix given by its rows. *)
Definition inner (a b : list R) : R := rsum (map (fun p => fst p * snd p) (combine a b)).
Definition row_times (v : list R) (M : list (list R)) : list R :=
  map (fun j => rsum (map (fun p => fst p * nth j (snd p) 0) (combine v M))) (seq 0 (length (hd [] M))).

Section Variance.
  Variable linalg_solve : list (list R) -> list R -> option (list R).
  Variable linalg_pinv : list (list R) -> list (list R).
  (** agpsr_utils.py:12-35 [variance] *)
  Definition variance (shifts gaps : list R) : R :=
    let M := shift_matrix shifts gaps in
    match linalg_solve M gaps with
    | Some a => 2 * inner a a
    | None => let a := row_times gaps (linalg_pinv M) in 2 * inner a a
    end.

  (** A constraint: a function of the shifts that must not be negative. *)
  Definition constraint : Type := (nat -> R) -> R.
  (** agpsr_utils.py:59-80 *)
  Definition constraints (n_eqs : nat) (lb ub : R) : list constraint :=
    flat_map (fun i => [(fun x => x i - lb) : constraint; (fun x => ub - x i) : constraint]) (seq 0 n_eqs) ++
    flat_map (fun i => map (fun j => (fun x => Rabs (x i - x j) - 2 / 100) : constraint) (seq 0 i)) (rev (seq 1 (n_eqs - 1))).
  (** scipy.optimize.minimize: objective, initial guess, constraints. *)
  Variable minimize : (list R -> R) -> list R -> list constraint -> list R.
  (** agpsr_utils.py:38-96 [calculate_optimal_shifts].  The outer None is the ValueError; [not (lb and ub)] holds for bounds that are not given
      and for bounds that are 0. *)
  Definition calculate_optimal_shifts (n_eqs : nat) (gaps : list R) (lb ub : option R) : option (list R) :=
    match lb, ub with
    | Some l, Some u => if Req_EM_T l 0 then None else if Req_EM_T u 0 then None
                        else Some (minimize (fun shifts => variance shifts gaps) (linspace l u n_eqs) (constraints n_eqs l u))
    | _, _ => None
    end.
End Variance.
