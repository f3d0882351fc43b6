(** Model of qadence/measurements/utils.py and measurements/tomography.py. *)
From Coq Require Import String Reals List Arith Bool.
From Coquelicot Require Import Coquelicot.
From Coq Require Import List.
From Verif Require Import S_Ops M_QubitSupport M_Block M_BlockOps M_Transpile M_PSR M_Pauli.
Import ListNotations.
Open Scope R_scope.

(** A Counter: outcome strings with their counts, in insertion order, no repeated key.  Python's counts are integers; the model takes real
    numbers, which includes the integers and also the exact frequencies. *)
Definition counter := list (list bool * R).
Definition has (c : counter) (k : list bool) : bool := existsb (fun kv => eqbits (fst kv) k) c.
Fixpoint cget (c : counter) (k : list bool) : R :=
  match c with [] => 0 | (k', v) :: r => if eqbits k' k then v else cget r k end.
Definition pos (x : R) : bool := if Rlt_dec 0 x then true else false.
(** CPython's [Counter.__add__]: sums, keeping only the positive results. *)
Definition cadd (c d : counter) : counter :=
  filter (fun kv => pos (snd kv)) (map (fun kv => (fst kv, snd kv + cget d (fst kv))) c)
  ++ filter (fun kv => negb (has c (fst kv)) && pos (snd kv)) d.

(** [""].join([k[i] for i in support]): [None] is IndexError. *)
Fixpoint pick (k : list bool) (support : list nat) : option (list bool) :=
  match support with
  | [] => Some []
  | i :: r => match nth_error k i, pick k r with Some b, Some l => Some (b :: l) | _, _ => None end
  end.
(** utils.py:42-57 for one sample; an empty Counter makes [reduce] raise TypeError ([None]). *)
Definition get_counts1 (sample : counter) (support : list nat) : option counter :=
  match osequence (map (fun kv => match pick (fst kv) support with Some k => Some [(k, snd kv)] | None => None end) sample) with
  | Some (c :: cs) => Some (fold_left cadd cs c)
  | _ => None
  end.
Definition get_counts (samples : list counter) (support : list nat) : option (list counter) :=
  osequence (map (fun s => get_counts1 s support) samples).

Definition ones (k : list bool) : nat := length (filter (fun b => b) k).
(** utils.py:60-78.  [n_shots] is the total of the FIRST counter.  [None]: [counters[0]] on an empty list.
    Simplification: division by a zero total is nan in NumPy; here it is Coq's [/ 0] (the theorems assume a positive total). *)
Definition empirical_average (samples : list counter) (support : list nat) : option (list R) :=
  match get_counts samples support with
  | Some (c0 :: cs) =>
      let n_shots := rsum (map snd c0) in
      Some (map (fun c => rsum (map (fun kv => snd kv * (-1) ^ ones (fst kv)) c) / n_shots) (c0 :: cs))
  | _ => None
  end.

(** The [blocks] attribute: composites, and also control blocks (blocks/primitive.py:379, 443). *)
Definition blocks_or_self (t : block) : list block :=
  match t with
  | BChain bs | BKron bs | BAdd bs => bs
  | BCtrl _ b | BPCtrl _ b => [b]
  | BCSwap _ a b => [BSwap a b]
  | _ => [t]
  end.
Section Order.
  Variable set_iter : list nat -> list nat.
  (** [block.qubit_support[0]]; [None] is IndexError. *)
  Definition first_qubit (b : block) : option nat := nth_error (locals (bsup set_iter b)) 0.
  (** utils.py:23-39; [op] is the primitive whose type is looked for. *)
  Definition is_op (op : option prim) (b : block) : bool :=
    match op with
    | None => true
    | Some p => match b, p with BPrim PX _, PX | BPrim PY _, PY | BPrim PZ _, PZ => true | _, _ => false end
    end.
  Definition get_qubit_indices_for_op (t : block) (op : option prim) : option (list nat) :=
    osequence (map first_qubit (filter (is_op op) (blocks_or_self t))).

  (** utils.py:81-101; the value of a coefficient is [ang rho].  [None] also for an empty decomposition (torch.stack raises). *)
  Definition zip_add (l l' : list R) : list R := map (fun p => fst p + snd p) (combine l l').
  Definition pauli_z_expectation (rho : env) (terms : list (block * expr)) (samples : list counter) : option (list R) :=
    match osequence (map (fun tc => match get_qubit_indices_for_op (fst tc) None with
                                    | Some s => option_map (map (fun v => v * ang rho (snd tc))) (empirical_average samples s)
                                    | None => None end) terms) with
    | Some (v :: vs) => Some (fold_left zip_add vs v)
    | _ => None
    end.

  (** utils.py:104-121: [gate(index) * H(index)] is [chain(gate(index), H(index))]. *)
  Definition rotate (circuit : block) (t : block) : option block :=
    match get_qubit_indices_for_op t (Some PX), get_qubit_indices_for_op t (Some PY) with
    | Some xs, Some ys => Some (BChain (circuit :: map (fun i => BChain [BPrim PI_ i; BPrim PH i]) xs ++ map (fun i => BChain [BPrim PSdg i; BPrim PH i]) ys))
    | _, _ => None
    end.

  (** utils.py:124-180 for one parameter set.  [sample] is backend.sample in big-endian order (external); [little] applies
      [invert_endianness] to its outcome strings, as the backend does when endianness is LITTLE (backends/pyqtorch/backend.py:303). *)
  Definition term_value (sample : block -> counter) (little : bool) (rho : env) (circuit : block) (tc : block * expr) : option R :=
    if is_identity (fst tc) then Some (ang rho (snd tc))
    else match get_qubit_indices_for_op (fst tc) None, rotate circuit (fst tc) with
         | Some s, Some rc =>
             let smp := sample rc in
             let smp := if little then map (fun kv => (rev (fst kv), snd kv)) smp else smp in
             match empirical_average [smp] s with
             | Some (v :: _) => Some (v * ang rho (snd tc))
             | _ => None
             end
         | _, _ => None
         end.
  Definition iterate_pauli_decomposition sample little rho circuit (terms : list (block * expr)) : option R :=
    match terms with
    | [] => None
    | _ => option_map rsum (osequence (map (term_value sample little rho circuit) terms))
    end.
  (** tomography.py:17-69. *)
  Definition tomography sample little rho circuit (observables : list block) : option (list R) :=
    osequence (map (fun o => iterate_pauli_decomposition sample little rho circuit (unroll_block_with_scaling o)) observables).
End Order.
