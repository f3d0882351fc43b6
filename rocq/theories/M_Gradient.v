(** Model of gradients with the parameter-shift rules, from the circuit to the gradient of every gate parameter:
    qadence/blocks/utils.py (uuid_to_block, uuid_to_eigen), the spectra declared in qadence/operations,
    qadence/engines/torch/differentiable_expectation.py (construct_rules, PSRExpectation).
    The circuit is at gate level: the value of each gate parameter is found under its identifier (uuid) in the dictionary of
    values, so the expression of a gate parameter is [EVar uuid].
    One element of the batch is considered, as in M_PSR.v.  Analog blocks and measurement protocols are not modelled. *)
From Coq Require Import String Reals List Arith Bool.
From Coquelicot Require Import Coquelicot.
From Coq Require Import List.
From Verif Require Import S_Ops M_Block M_Tensor M_Transpile M_PSR.
Import ListNotations.
Open Scope R_scope.

(** parameters.py: the identifiers of a ParamMap, here of one parameter. *)
Definition labels (e : expr) : list string := match e with EVar u => [u] | _ => [] end.

(** Python dictionaries in insertion order: assignment replaces the value of a present key. *)
Fixpoint dset {A} (k : string) (v : A) (d : list (string * A)) : list (string * A) :=
  match d with
  | [] => [(k, v)]
  | (k', v') :: r => if String.eqb k' k then (k', v) :: r else (k', v') :: dset k v r
  end.
Definition dput {A} (d : list (string * A)) (kv : string * A) : list (string * A) := dset (fst kv) (snd kv) d.

(** blocks/utils.py:216-252.  A block without parameters and a ControlBlock leave the dictionary alone. *)
Fixpoint uuid_to_block (b : block) (d : list (string * block)) : list (string * block) :=
  match b with
  | BScale b' e => uuid_to_block b' (fold_left dput (map (fun u => (u, b)) (labels e)) d)
  | BChain bs | BKron bs | BAdd bs => fold_left (fun d b' => uuid_to_block b' d) bs d
  | BRot _ _ e => fold_left dput (map (fun u => (u, b)) (labels e)) d
  | BU _ e1 e2 e3 => fold_left dput (map (fun u => (u, b)) (labels e1 ++ labels e2 ++ labels e3)) d
  | BPCtrl _ b' =>
      fold_left dput (map (fun u => (u, b)) (match b' with
                                             | BRot _ _ e => labels e
                                             | BU _ e1 e2 e3 => labels e1 ++ labels e2 ++ labels e3
                                             | _ => []
                                             end)) d
  | BEvo g t => fold_left dput (map (fun u => (u, b)) (labels t)) (uuid_to_block g d)
  | BPrim _ _ | BProj _ _ _ | BSwap _ _ | BCSwap _ _ _ | BCtrl _ _ | BMat _ _ => d
  end.

(** What reading [eigenvalues_generator] does: a tensor (possibly empty), ValueError, or another exception. *)
Inductive spectrum := Spectrum (l : list R) | Undefined | Crash.

Section Eigen.
  (** torch.linalg.eigvals of the matrix of a block (utils.py:222-242) and, for a MatrixBlock, the logarithm of the
      eigenvalues (blocks/matrix.py:93-101). *)
  Variable eigvals : block -> list R.

  (** operations/primitive.py:43, 64, 85 (X, Y, Z), 120 (I), 150 (Projector), 172 (N), 194, 219 (S), 244 (H), 260 (Zero), 305, 334 (T),
      369 (SWAP); parametric.py:51, 83, 115, 147, 182; control_ops.py:44 (CNOT), 74 (CZ, MCZ: torch.cat refuses a tensor
      without dimension), 121, 164, 203, 246, 316 (CSWAP), 342 (Toffoli); ham_evo.py:177; blocks/primitive.py:262 (ScaleBlock), 453;
      blocks/composite.py:40.  Simplification: a ControlBlock not in the library's list of gates is not told apart from Toffoli. *)
  Fixpoint eigenvalues_generator (b : block) : spectrum :=
    match b with
    | BPrim (PX | PY | PZ) _ => Spectrum [-1; 1]
    | BPrim PI_ _ => Spectrum [1; 1]
    | BPrim (PN _) _ | BProj _ _ _ => Undefined
    | BPrim (PS | PSdg | PT | PTdg) _ => Spectrum [0; 1]
    | BPrim PH _ => Spectrum [-2; 0]
    | BPrim PZero _ => Spectrum [0; 0]
    | BSwap _ _ => Spectrum [-2; 0; 0; 0]
    | BCSwap _ _ _ => Spectrum [1; -1; 1; 1; 1; 1; 1; 1]
    | BCtrl _ (BPrim PZ _) => Crash
    | BCtrl cs _ => Spectrum (-2 :: repeat 0 (2 ^ S (length cs) - 1))
    | BRot RPhase _ _ => Spectrum spectrum_phase
    | BRot _ _ _ | BU _ _ _ _ => Spectrum spectrum_rot
    | BPCtrl cs (BRot RPhase _ _) => Spectrum (spectrum_mcphase (S (length cs)))
    | BPCtrl cs (BRot _ _ _) => Spectrum (spectrum_mcrot (S (length cs)))
    | BPCtrl _ _ => Spectrum []
    | BScale b' _ => eigenvalues_generator b'
    | BChain _ | BKron _ | BAdd _ => Spectrum []
    | BMat _ _ => Spectrum (eigvals b)
    | BEvo g _ => Spectrum (eigvals g)
    end.

  (** blocks/utils.py:295-326: spectrum and shift factor of one parameter.  [None]: no entry; outer [None]: exception. *)
  Definition eigen_entry (rescale : bool) (b : block) : option (option (list R * R)) :=
    match eigenvalues_generator b with
    | Crash => None
    | Undefined => Some (Some ([0; 0], 1))
    | Spectrum [] => Some None
    | Spectrum l =>
        match b with
        | BEvo _ _ =>
            if rescale then
              Some (Some (map (fun x => x * 2) l, match l with [x] => 1 / (x * 2) | _ => 1 / 2 end))
            else Some (Some (l, 1))
        | _ => Some (Some (l, 1))
        end
    end.
  (** blocks/utils.py:267-328.  (Simplification: the early exit for ConstantAnalogRotation is left out.) *)
  Definition uuid_to_eigen (rescale : bool) (b : block) : option (list (string * (list R * R))) :=
    option_map (fun l => flat_map (fun ue => match snd ue with Some e => [(fst ue, e)] | None => [] end) l)
      (osequence (map (fun ub => option_map (fun e => (fst ub, e)) (eigen_entry rescale (snd ub))) (uuid_to_block b []))).

  (** A rule applied to a function of the dictionary, a dictionary and a name ([None]: exception). *)
  Definition rule := (params -> R) -> params -> string -> option R.

  Section Rules.
    Variable linalg_solve : list (list R) -> list R -> option (list R).
    (** The user's [shift_prefac] among [psr_args]. *)
    Variable arg : option R.
    (** differentiable_expectation.py:233-244 with the default 0.5 of parameter_shift_rules.py:17. *)
    Definition prefactor (factor : R) : R :=
      if Req_EM_T factor 1 then match arg with Some p => p | None => 1 / 2 end
      else match arg with Some p => factor * p | None => factor end.
    Definition gpsr (e : list R * R) : rule := general_psr linalg_solve (fst e) (prefactor (snd e)).
    (** differentiable_expectation.py:245-252: parameters of the observables get a function of one argument, which is called with
        three (line 78), a TypeError. *)
    Definition constant_rule : rule := fun _ _ _ => None.
    (** differentiable_expectation.py:207-254. *)
    Definition construct_rules (circuit : block) (observables : list block) : option (list (string * rule)) :=
      obind (uuid_to_eigen true circuit) (fun eigs =>
      obind (osequence (map (uuid_to_eigen false) observables)) (fun obs =>
      Some (fold_left (fun d l => fold_left (fun d e => dset (fst e) constant_rule d) l d) obs
              (fold_left dput (map (fun e => (fst e, gpsr (snd e))) eigs) [])))).
  End Rules.

  (** differentiable_expectation.py:76-78 [vjp]: [outs] pairs the incoming gradient of each observable with the expectation
      value of that observable as a function of the dictionary. *)
  Definition vjp (outs : list (R * (params -> R))) (rho : params) (r : rule) (name : string) : option R :=
    option_map rsum (osequence (map (fun wE => option_map (fun d => fst wE * d) (r (snd wE) rho name)) outs)).
  (** differentiable_expectation.py:63-87: one gradient for each parameter, [None] where none is needed. *)
  Definition backward (rules : list (string * rule)) (outs : list (R * (params -> R))) (needs : string -> bool) (rho : params)
    : option (list (string * option R)) :=
    osequence (map (fun kr => if needs (fst kr) then option_map (fun d => (fst kr, Some d)) (vjp outs rho (snd kr) (fst kr))
                              else Some (fst kr, None)) rules).
End Eigen.
