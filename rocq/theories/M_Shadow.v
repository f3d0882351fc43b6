(** Model of qadence/measurements/shadow.py. *)
From Coq Require Import String Reals ZArith List Arith Bool.
From Coquelicot Require Import Coquelicot.
From Coq Require Import List.
From Verif Require Import S_Ops M_QubitSupport M_Block M_BlockOps M_Transpile M_PSR M_Pauli M_Measure.
Import ListNotations.
Open Scope R_scope.
Open Scope nat_scope.

(** backends/pyqtorch/backend.py:155-177 [run] and 286-303 [sample], as shadow.py:139-173 uses them: the probability of the outcome
    string [s] of the circuit [c] applied to the state [psi] of the given circuit.  For little-endian runs the state is reversed by
    [run], handed to [sample] as it is, and the outcome strings are reversed. *)
Definition reversed_state (n : nat) (psi : St) : St := fun x => psi (fun q => if q <? n then x (n - 1 - q) else x q).
Definition shot_prob (little : bool) (n : nat) (final : St -> St) (psi : St) (s : list bool) : R :=
  let p (phi : St) (r : list bool) := let a := phi (upds zeros (seq 0 n) r) in (fst a ^ 2 + snd a ^ 2)%R in
  if little then p (final (reversed_state n psi)) (rev s) else p (final psi) s.

(** shadow.py:52, 59: [isinstance(block, (X, Y, Z))]. *)
Definition is_xyz (b : block) : bool := match b with BPrim PX _ | BPrim PY _ | BPrim PZ _ => true | _ => false end.
(** blocks that are PrimitiveBlocks: all but the composites (blocks/primitive.py, blocks/composite.py). *)
Definition is_primitive (b : block) : bool := match b with BChain _ | BKron _ | BAdd _ => false | _ => true end.
(** shadow.py:50-61: the weight of one term; [None] is NotPauliBlockError. *)
Definition term_weight (b : block) : option nat :=
  if is_primitive b then Some (if is_xyz b then 1 else 0)
  else option_map (fun l => length (filter is_xyz l)) (get_pauli_blocks b).
(** [max] of a list; [None] is ValueError on an empty one. *)
Definition pymax (l : list nat) : option nat := match l with [] => None | x :: r => Some (fold_left Nat.max r x) end.
(** shadow.py:35-62, 65-67. *)
Definition max_observable_weight (o : block) : option nat :=
  match osequence (map (fun tc => term_weight (fst tc)) (unroll_block_with_scaling o)) with Some l => pymax l | None => None end.
Definition maximal_weight (os : list block) : option nat :=
  match osequence (map max_observable_weight os) with Some l => pymax l | None => None end.
(** shadow.py:70-85; [rint] is Python's [round].  [accuracy = 0] (ZeroDivisionError) is not modelled. *)
Definition number_of_samples (os : list block) (accuracy confidence : R) : option (Z * Z) :=
  option_map (fun k => (rint (3 ^ k * 34 / accuracy ^ 2)%R, rint (2 * ln (2 * INR (length os) / confidence))%R)) (maximal_weight os).

(** shadow.py:22-26: the rotations; 0, 1, 2 stand for X, Y, Z. *)
Definition pauli_rotation (id i : nat) : option (option block) :=
  match id with
  | 0 => Some (Some (BPrim PH i))
  | 1 => Some (Some (BChain [BPrim PSdg i; BPrim PH i]))
  | 2 => Some None
  | _ => None
  end.
Definition drop_none (l : list (option block)) : list block := flat_map (fun o => match o with Some b => [b] | None => [] end) l.
Section Order.
  Variable set_iter : list nat -> list nat.
  (** shadow.py:99-101 for one row, and 104-106 [kron_if_non_empty].  [None]: an exception; [Some None]: no rotation. *)
  Definition row_rotations (row : list nat) : option (option block) :=
    match osequence (map (fun ii => pauli_rotation (snd ii) (fst ii)) (combine (seq 0 (length row)) row)) with
    | Some ops => match drop_none ops with
                  | [] => Some None
                  | l => option_map Some (mk_kron set_iter l)
                  end
    | None => None
    end.
  (** shadow.py:109-121 and 139-161: the circuits that are sampled, one per row of [ids]; each acts on the state the given circuit
      prepares.  For one qubit [extract_operators] returns lists, not blocks, and the QuantumCircuit constructor (circuit.py:38-42)
      raises AttributeError on a list ([None]). *)
  Definition shadow_circuits (n : nat) (ids : list (list nat)) : option (list block) :=
    if 1 <? n
    then osequence (map (fun row => option_map (fun o => match o with Some b => b | None => BChain [] end) (row_rotations row)) ids)
    else match ids with [] => Some [] | _ => None end.

  (** shadow.py:21, 204, 208: [pauli_gates.index(type(p))]; [None] is ValueError. *)
  Definition pauli_index (b : block) : option nat :=
    match b with BPrim PX _ => Some 0 | BPrim PY _ => Some 1 | BPrim PZ _ => Some 2 | _ => None end.
  Definition is_I (b : block) : bool := match b with BPrim PI_ _ => true | _ => false end.
  Inductive target := Constant | Letters (idx support : list nat).
  (** shadow.py:200-211; the last case is a NameError (neither primitive nor composite cannot happen). *)
  Definition read_observable (o : block) : option target :=
    if is_I o then Some Constant
    else match o with
         | BChain bs | BKron bs | BAdd bs =>
             match osequence (map pauli_index (filter (fun b => negb (is_I b)) bs)), osequence (map (first_qubit set_iter) (filter is_I bs)) with
             | Some idx, Some is => Some (Letters idx (filter (fun q => negb (existsb (Nat.eqb q) is)) (locals (bsup set_iter o))))
             | _, _ => None
             end
         | _ => option_map (fun i => Letters [i] (locals (bsup set_iter o))) (pauli_index o)
         end.

  (** [a[lo:hi]]. *)
  Definition slice {A} (l : list A) (lo hi : nat) : list A := firstn (hi - lo) (skipn lo l).
  (** [a[:, cols]] for one row; [None] is IndexError. *)
  Definition columns {A} (row : list A) (cols : list nat) : option (list A) := osequence (map (nth_error row) cols).
  (** [row == idx], then [np.all]: NumPy broadcasts lists of length 1; other different lengths raise. *)
  Definition all_equal (row idx : list nat) : option bool :=
    if Nat.eqb (length row) (length idx) then Some (forallb (fun p => Nat.eqb (fst p) (snd p)) (combine row idx))
    else match row, idx with
         | [a], _ => Some (forallb (Nat.eqb a) idx)
         | _, [b] => Some (forallb (Nat.eqb b) row)
         | _, _ => None
         end.
  Definition matches (idx support : list nat) (row : list nat) : option bool :=
    match columns row support with Some r => all_equal r idx | None => None end.
  (** The entries [1 - 2 * bit] of the shadow (shadow.py:179-182). *)
  Definition spin (b : bool) : R := if b then (-1)%R else 1%R.
  (** shadow.py:213-229 for one group. *)
  Definition group_trace (idx support : list nat) (ids : list (list nat)) (samples : list (list bool)) : option R :=
    match osequence (map (matches idx support) ids) with
    | Some ms =>
        let selected := map snd (filter fst (combine ms samples)) in
        match selected with
        | [] => Some 0%R
        | _ => option_map (fun vs => (rsum (map (fold_right (fun b r => spin b * r)%R 1%R) vs) / INR (length (filter (fun m => m) ms)))%R)
                 (osequence (map (fun s => columns s support) selected))
        end
    | None => None
    end.
  (** shadow.py:186-229.  [int(np.floor(N / K))] is the integer quotient (floating point is not modelled); K = 0 raises.
      The constant 1 of the identity (a number, not a list of K) is a list of one entry: its median is the same. *)
  Definition estimators (N K : nat) (ids : list (list nat)) (samples : list (list bool)) (o : block) : option (list R) :=
    match read_observable o with
    | None => None
    | Some Constant => Some [1%R]
    | Some (Letters idx support) =>
        if Nat.eqb K 0 then None
        else let fl := N / K in
             osequence (map (fun k => group_trace idx support (slice ids (k * fl) ((k + 1) * fl)) (slice samples (k * fl) ((k + 1) * fl))) (seq 0 K))
    end.
  (** torch.median: the lower of the two middle values; insertion sort. *)
  Fixpoint insert_sorted (x : R) (l : list R) : list R :=
    match l with [] => [x] | y :: r => if Rle_dec x y then x :: l else y :: insert_sorted x r end.
  Definition sort (l : list R) : list R := fold_right insert_sorted [] l.
  Definition median (l : list R) : R := nth ((length l - 1) / 2) (sort l) 0%R.
  (** shadow.py:261-282 for one observable and one batch element; the coefficient is a number. *)
  Definition estimate (rho : env) (N K : nat) (ids : list (list nat)) (samples : list (list bool)) (o : block) : option R :=
    option_map (fun l => rsum l) (osequence (map (fun tc => option_map (fun e => (median e * ang rho (snd tc))%R) (estimators N K ids samples (fst tc)))
      (unroll_block_with_scaling o))).
  (** shadow.py:232-283: the observables, for one batch element; N and K as [number_of_samples] gives them, N replaced by [shadow_size]. *)
  Definition estimations (rho : env) (os : list block) (shadow_size : option nat) (accuracy confidence : R) (ids : list (list nat)) (samples : list (list bool)) : option (list R) :=
    match number_of_samples os accuracy confidence with
    | Some (n0, k0) =>
        let N := match shadow_size with Some s => s | None => Z.to_nat n0 end in
        osequence (map (estimate rho N (Z.to_nat k0) ids samples) os)
    | None => None
    end.
End Order.
