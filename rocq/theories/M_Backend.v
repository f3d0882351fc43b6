(** Model of [Backend.run], [Backend._batched_expectation], [Backend._looped_expectation] and [Backend.sample]
    (qadence/backends/pyqtorch/backend.py) with the shape helpers of qadence/backends/utils.py and the tensor version of
    [invert_endianness] (qadence/transpile/invert.py).  Noise and measurement protocols are not part of this model. *)
From Coq Require Import String Reals List Arith Bool.
From Coquelicot Require Import Coquelicot.
From Coq Require Import List.
From Verif Require Import S_Ops M_Block M_Tensor M_Transpile M_Basis S_Tensor.
Import ListNotations.
Open Scope nat_scope.

(** utils.py:112-135 [pyqify] for states (not density matrices). *)
Definition pyqify (state : tensor) (n_qubits : nat) : option tensor :=
  match shape state with
  | [b; d] => if Nat.eqb d (2 ^ n_qubits) then obind (transpose state) (fun t => reshape t (repeat 2 n_qubits ++ [b])) else None
  | _ => None
  end.
(** utils.py:138-147 [unpyqify]: torch.flatten(state, 0, -2).t(); a tensor with fewer than two dimensions is refused. *)
Definition unpyqify (state : tensor) : option tensor :=
  if Nat.ltb (length (shape state)) 2 then None
  else obind (reshape state [volume (removelast (shape state)); last (shape state) 0]) transpose.
(** utils.py:255-260 [is_qadence_shape] (qadence/utils.py) *)
Definition is_qadence_shape (s : list nat) (n_qubits : nat) : bool := Nat.eqb (nth 1 s 0) (2 ^ n_qubits).
(** backends/utils.py:150-151 [is_pyq_shape]: a torch.Size (a tuple) is compared with a list, which is never equal. *)
Definition is_pyq_shape (s : list nat) (n_qubits : nat) : bool := false.
(** backends/utils.py:154-166 [validate_state]; the dtype is complex. *)
Definition validate_state (state : tensor) (n_qubits : nat) : bool :=
  if Nat.ltb (length (shape state)) 2 then false
  else is_qadence_shape (shape state) n_qubits || is_pyq_shape (shape state) n_qubits.
(** backends/utils.py:169-184 [infer_batchsize]: len() of a tensor without dimensions raises, and the exception gives 1. *)
Definition infer_batchsize (v : vals) : nat :=
  match lens v with
  | [] => 1
  | ls => if forallb (fun o => match o with Some _ => true | None => false end) ls
          then fold_right Nat.max 0 (map (fun o => match o with Some l => l | None => 0 end) ls) else 1
  end.

(** invert.py:96-110 [invert_endianness] of a tensor; int(np.log2(.)) of 0 raises, as does a missing second dimension. *)
Definition invert_tensor (t : tensor) : option tensor :=
  match shape t with
  | a :: d :: rest =>
      if Nat.eqb d 0 then None
      else let n := Nat.log2 d in
           Some (Tn (a :: 2 ^ n :: rest)
                   (fun i => match i with x :: j :: r => at_ t (x :: bits_to_nat (rev (nat_to_bits n j)) :: r) | _ => at_ t i end))
  | _ => None
  end.
Definition invert_if (e : endian) (t : tensor) : option tensor := match e with Big => Some t | Little => invert_tensor t end.

Section Backend.
  (** The native circuit and the native observables as operators of the parameter values. *)
  Variable n : nat.
  Variable circuit : env -> option Op.

  (** backend.py:158-180 [run] *)
  Definition run (v : vals) (state : option tensor) (e : endian) (unpyqify_state : bool) : option tensor :=
    let start :=
      match state with
      | None => Some (init_state n (infer_batchsize v))
      | Some s => if validate_state s n then pyqify s n else None
      end in
    obind start (fun s =>
    obind (native_run n circuit v s) (fun s' =>
    obind (if unpyqify_state then unpyqify s' else Some s') (invert_if e))).

  (** torch.hstack of columns of equal length; the result as a list of rows *)
  Definition hstack (cols : list (list R)) : option (list (list R)) :=
    match cols with
    | [] => None
    | c :: r => if forallb (fun c' => Nat.eqb (length c') (length c)) r
                then Some (map (fun k => map (fun c' => nth k c' 0%R) cols) (seq 0 (length c))) else None
    end.
  (** backend.py:182-213 [_batched_expectation]; [vc], [vo]: the values for the circuit and for the observables. *)
  Definition batched_expectation (obs : list (env -> option Op)) (vc vo : vals) (state : option tensor) (e : endian) : option (list (list R)) :=
    obind (run vc state e false) (fun s =>
    obind (osequence (map (fun o => native_expectation n o vo s) obs)) hstack).

  (** backends/utils.py:97-109 [to_list_of_dicts]: a tensor without dimensions raises.  A shorter tensor is repeated: its row is the
      tensor itself. *)
  Definition to_list_of_dicts (v : vals) : option (list vals) :=
    match lens v with
    | [] => Some [v]
    | ls => obind (osequence ls) (fun ls =>
        let m := fold_right Nat.max 0 ls in
        Some (map (fun i => Vals (map (fun l => if Nat.eqb l m then None else Some l) ls) (fun _ => vrow v i)) (seq 0 m)))
    end.
  (** backend.py:215-260 [_looped_expectation] *)
  Definition looped_expectation (obs : list (env -> option Op)) (vc vo : vals) (state : option tensor) (e : endian) : option (list (list R)) :=
    let state := match state with None => Tn [1; 2 ^ n] (fun i => if forallb (Nat.eqb 0) i then RtoC 1 else RtoC 0) | Some s => s end in
    if negb (Nat.eqb (nth 0 (shape state) 0) 1) then None
    else obind (to_list_of_dicts vc) (fun rc => obind (to_list_of_dicts vo) (fun ro =>
         osequence (map (fun p => obind (run (fst p) (Some state) e false) (fun wf =>
           omap (@concat R) (osequence (map (fun o => native_expectation n o (snd p) wf) obs)))) (combine rc ro)))).

  (** backend.py:282-312 [sample] without noise and mitigation. *)
  Definition sample (draw : nat -> (list bool -> R) -> list (list bool * nat)) (v : vals) (state : option tensor) (e : endian)
    : option (list (list (list bool * nat))) :=
    let start := match state with None => Some (init_state n (infer_batchsize v)) | Some s => pyqify s n end in
    obind start (fun s =>
    omap (fun samples => match e with Big => samples | Little => map invert_counter samples end) (native_sample draw n circuit v s)).
End Backend.
