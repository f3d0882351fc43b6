(** Model of qadence/backends/pulser/waveforms.py, over real arithmetic (numpy's [round] is half-to-even, [M_PSR.rint]). *)
From Coq Require Import Reals ZArith.
From Verif Require Import M_PSR.
Open Scope R_scope.

(** numpy.ceil *)
Definition np_ceil (x : R) : R := - IZR (Int_part (- x)).
(** waveforms.py:8-9 *)
Definition MAX_AMPLITUDE_SCALING : R := 1 / 10.
Definition EPS : R := 1 / 10 ^ 9.

(** waveforms.py:27-36 and 44-47, 54-57: the constants 1e3 and 1e-3 convert ns to us. *)
Definition first_duration (area max_amp steps min_duration : R) : R :=
  Rmax (steps * IZR (rint (area / (steps * max_amp) * 1000))) min_duration.
Definition ceil_amplitude (area amp_steps duration : R) : R := amp_steps * np_ceil (area / (amp_steps * duration) * 1000).
Definition error (area duration amplitude : R) : R := Rabs (1 / 1000 * duration * amplitude - area).

(** waveforms.py:43-55, the loop; [None] when it has not ended after [fuel] tests. *)
Fixpoint loop (fuel : nat) (area max_amp steps duration amplitude delta : R) : option (R * R) :=
  match fuel with
  | O => None
  | S k =>
      let new_duration := duration + steps in
      let new_amplitude := Rmax (ceil_amplitude area (MAX_AMPLITUDE_SCALING * max_amp) new_duration) max_amp in
      let new_delta := error area new_duration new_amplitude in
      if Rlt_dec new_delta delta then loop k area max_amp steps new_duration new_amplitude new_delta
      else Some (duration, amplitude)
  end.

(** waveforms.py:17-57 *)
Definition from_area (fuel : nat) (area max_amp steps min_duration : R) : option (R * R) :=
  let amp_steps := MAX_AMPLITUDE_SCALING * max_amp in
  let duration := first_duration area max_amp steps min_duration in
  let amplitude := Rmin (ceil_amplitude area amp_steps duration) max_amp in
  loop fuel area max_amp steps duration amplitude (error area duration amplitude).

(** waveforms.py:59-79 *)
Definition from_duration (duration max_amp steps min_duration : R) : R * R :=
  let amp_steps := MAX_AMPLITUDE_SCALING * max_amp in
  (Rmax (steps * IZR (rint (duration / steps))) min_duration,
   Rmin (amp_steps * np_ceil (max_amp / (amp_steps + EPS) * 1000)) max_amp).
