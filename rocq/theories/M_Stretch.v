(** Model of zero-noise extrapolation by pulse stretching, qadence/mitigations/analog_zne.py:42-113 [pulse_experiment] and 153-193 [analog_zne].
    The noisy simulation of a circuit and the expectation value of an observable at its end is the argument [measure]; it gives one value
    for each set of parameter values.  [None] stands for a raised exception. *)
From Coq Require Import Reals List Arith Bool.
From Verif Require M_Register M_Zne.
From Verif Require Import M_QubitSupport M_Block M_Tensor M_Transpile M_Rydberg.
Import ListNotations.
Open Scope R_scope.

(** analog_zne.py:52-70 [mutate_params].  The parameters of an InteractionBlock are its duration only (operations/analog.py:82-83), so
    that asking for omega raises AttributeError.  AnalogRot is called without add_pattern, whose default is True. *)
Definition mutate_params (stretch : R) (t : tree) : option tree :=
  match t with
  | TRot dur omega delta phase s _ => AnalogRot (dur * stretch) (omega / stretch) (delta / stretch) phase s true
  | TInt _ _ _ => None
  | _ => Some t
  end.
(** transpile/apply_fn.py:17-43.  AnalogKrons are leaves.  Simplification: the parts are put together with the constructor of the original
    composite; its checks depend only on the kinds and the supports of the parts, which do not change. *)
Fixpoint stretch_block (stretch : R) (t : tree) : option tree :=
  match t with
  | TAChain bs => option_map TAChain (osequence (map (stretch_block stretch) bs))
  | TChain bs => option_map TChain (osequence (map (stretch_block stretch) bs))
  | TKron bs => option_map TKron (osequence (map (stretch_block stretch) bs))
  | TAdd bs => option_map TAdd (osequence (map (stretch_block stretch) bs))
  | _ => mutate_params stretch t
  end.

Section Experiment.
  Context {O : Type}.
  Variable polyfit : list R -> list R -> nat -> list R.
  Variable measure : M_Register.register -> tree -> O -> list R.
  (** analog_zne.py:73-113. *)
  Definition pulse_experiment (r : M_Register.register) (t : tree) (observables : list O) (stretches : list R) : option (list (list R)) :=
    obind (osequence (map (fun s => option_map (fun t' => (M_Register.rescale_coords r s, t')) (stretch_block s t)) stretches)) (fun runs =>
    M_Zne.zne polyfit stretches (map (fun o => map (fun run => measure (fst run) (snd run) o) runs) observables)).

  (** analog_zne.py:116-150: one noisy run for each noise probability. *)
  Variable measure_at : R -> M_Register.register -> tree -> O -> list R.
  Definition noise_level_experiment (r : M_Register.register) (t : tree) (observables : list O) (noise_probs : list R) : option (list (list R)) :=
    M_Zne.zne polyfit noise_probs (map (fun o => map (fun p => measure_at p r t o) noise_probs) observables).

  (** analog_zne.py:153-193: the options of the mitigation decide; a noise model is required (KeyError). *)
  Definition analog_zne (has_noise_model : bool) (stretches : option (list R)) (noise_probs : list R) (r : M_Register.register) (t : tree) (observables : list O) : option (list (list R)) :=
    if negb has_noise_model then None else
    match stretches with
    | Some ss => pulse_experiment r t observables ss
    | None => noise_level_experiment r t observables noise_probs
    end.
End Experiment.
