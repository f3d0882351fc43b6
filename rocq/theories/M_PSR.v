(** Model of qadence/backends/parameter_shift_rules.py (all of it except the optimiser-based choice of
    shifts, agpsr_utils.py), of the rescaling of spectra in blocks/utils.py:267-328 and
    engines/torch/differentiable_expectation.py:204-227, and of the rule used by the JAX engine. *)
From Coq Require Import Reals List ZArith Bool String Lra.
Import ListNotations.
Open Scope R_scope.

(** Sum of a list (torch.sum). *)
Fixpoint rsum (l : list R) : R := match l with [] => 0 | x :: r => x + rsum r end.

(** torch.round(decimals=0): nearest integer, ties to even. *)
Definition rint (x : R) : Z :=
  let z := Int_part x in
  if Rlt_dec (x - IZR z) (1 / 2) then z
  else if Rlt_dec (1 / 2) (x - IZR z) then (z + 1)%Z
  else if Z.even z then z else (z + 1)%Z.

(** utils.py:245-252 [_round_complex] with the default 4 decimals.  (Simplification: the spectra are real,
    so only the real part is modelled.) *)
Definition round4 (x : R) : R := IZR (rint (x * 10000)) / 10000.

(** torch.unique: sorted, without repetitions. *)
Fixpoint uinsert (x : R) (l : list R) : list R :=
  match l with
  | [] => [x]
  | y :: r => if Rlt_dec x y then x :: l else if Req_EM_T x y then l else y :: uinsert x r
  end.
Definition unique (l : list R) : list R := fold_right uinsert [] l.

(** parameter_shift_rules.py:38: [diffs[i][j] = round(spectrum[j] - spectrum[i])]; 39: tril keeps the entries with
    j <= i and puts zero elsewhere. *)
Definition tril_abs (spectrum : list R) : list R :=
  flat_map (fun i => map (fun j => if Nat.leb j i then Rabs (round4 (nth j spectrum 0 - nth i spectrum 0)) else Rabs 0)
                         (seq 0 (List.length spectrum)))
           (seq 0 (List.length spectrum)).
(** parameter_shift_rules.py:38-42. *)
Definition spectral_gaps_of (spectrum : list R) : list R :=
  filter (fun g => if Rlt_dec 0 g then true else false) (unique (tril_abs spectrum)).

(** Parameter dictionaries.  (Simplification: one number per parameter, i.e. one element of the batch; the rule
    acts on every batch element and observable separately.) *)
Definition params := string -> R.
(** parameter_shift_rules.py:93-94: copy of the dictionary with one value replaced. *)
Definition shifted (rho : params) (name : string) (v : R) : params :=
  fun k => if String.eqb k name then v else rho k.

(** parameter_shift_rules.py:67-102. *)
Definition single_gap_psr (E : params -> R) (rho : params) (name : string) (gap shift : R) : R :=
  let f_plus := E (shifted rho name (rho name + shift)) in
  let f_min := E (shifted rho name (rho name - shift)) in
  gap * (f_plus - f_min) / (4 * sin (gap * shift / 2)).

(** torch.linspace(a, b, n). *)
Definition linspace (a b : R) (n : nat) : list R :=
  map (fun k => match n with 1%nat => a | _ => a + INR k * ((b - a) / (INR n - 1)) end) (seq 0 n).

Section Multi.
  (** torch.linalg.solve: [None] stands for the error raised on a singular matrix. *)
  Variable linalg_solve : list (list R) -> list R -> option (list R).

  (** parameter_shift_rules.py:148-179 for given shifts.  [None] when an exception leaves the function: a singular
      system, or no equation at all ([f_plus] is then unbound, line 167). *)
  Definition multi_gap_with (E : params -> R) (rho : params) (name : string) (gaps shifts : list R) : option R :=
    let M := map (fun s => map (fun g => 4 * sin (s * g / 2)) gaps) shifts in
    let F := map (fun s => E (shifted rho name (rho name + s)) - E (shifted rho name (rho name - s))) shifts in
    match gaps with
    | [] => None
    | _ => match linalg_solve M F with
           | Some X => Some (rsum (map (fun p => fst p * snd p) (combine gaps X)))
           | None => None
           end
    end.

  (** parameter_shift_rules.py:135-138: the shifts set by [shift_prefac]. *)
  Definition multi_shifts (prefac : R) (n : nat) : list R :=
    map (fun s => prefac * s) (linspace (PI / 2 - PI / 4) (PI / 2 + PI / 5) n).
  Definition multi_gap_psr E rho name gaps prefac : option R :=
    multi_gap_with E rho name gaps (multi_shifts prefac (List.length gaps)).

  (** parameter_shift_rules.py:14-64 with [n_eqs = None] (the exact rule, GPSR). *)
  Definition general_psr (spectrum : list R) (prefac : R) (E : params -> R) (rho : params) (name : string) : option R :=
    match spectral_gaps_of spectrum with
    | [g] => Some (single_gap_psr E rho name g (prefac * (PI / 2)))
    | gaps => multi_gap_psr E rho name gaps prefac
    end.

  (** blocks/utils.py:303-319 and differentiable_expectation.py:213-221: spectrum and shift factor handed to the rule
      for a rotation (left) and for a time evolution whose generator has at least two eigenvalues (right).
      [arg] is the user's shift_prefac, if given; [general_psr]'s default is 0.5. *)
  Definition rule_rotation (arg : option R) (spectrum : list R) :=
    general_psr spectrum (match arg with Some p => p | None => 1 / 2 end).
  Definition rule_evolution (arg : option R) (spectrum : list R) :=
    general_psr (map (fun l => l * 2) spectrum) (match arg with Some p => 1 / 2 * p | None => 1 / 2 end).
End Multi.

(** engines/jax/differentiable_expectation.py:70-89: the gap is fixed to 2 and the shift to pi/2. *)
Definition jax_psr (E : params -> R) (rho : params) (name : string) : R :=
  single_gap_psr E rho name 2 (PI / 2).

(** Declared generator spectra: operations/parametric.py:51 (PHASE), 83, 115, 147 (RX, RY, RZ);
    operations/control_ops.py:121, 164, 203 (MCRX, MCRY, MCRZ) and 246 (MCPHASE) for [n] qubits in total. *)
Definition spectrum_phase : list R := [0; 2].
Definition spectrum_rot : list R := [-1; 1].
Definition spectrum_mcrot (n : nat) : list R := repeat 0 (2 ^ n - 2) ++ [1; -1].
Definition spectrum_mcphase (n : nat) : list R := [-2; 0] ++ repeat 0 (2 ^ n - 2).
