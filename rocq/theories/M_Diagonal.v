(** Model of the conversion of diagonal observables to vectors and sparse tensors: [block_to_diagonal], the diagonal mode of
    [_fill_identities] and the branch SPARSEDIAGONAL of [block_to_tensor], all in qadence/blocks/block_to_tensor.py.  The dense
    conversion is in M_Tensor.v, the predicate [_is_diag_pauli] in M_Samples.v.

    Simplifications: the values of a scale are given as a list (one value for each element of the batch, a single one for a
    constant); device arguments and gradients are ignored; an exception is [None]. *)
From Coq Require Import String Reals List Arith Bool.
From Coquelicot Require Import Coquelicot.
From Coq Require Import List.
From Verif Require Import S_Ops M_QubitSupport M_Block M_BlockOps M_Tensor M_Transpile M_Pauli M_Samples.
Import ListNotations.
Open Scope R_scope.
Open Scope C_scope.

(** A tensor with one dimension. *)
Record dvec := mkD { size : nat; at_ : nat -> C }.
(** torch.diag of a matrix *)
Definition diag_of (m : tensor) : dvec := mkD (dim m) (fun i => ent m i i).
(** torch.kron of two vectors *)
Definition d_kron (a b : dvec) : dvec := mkD (size a * size b) (fun i => at_ a (i / size b) * at_ b (i mod size b)).
Definition d_kron_end (e : endian) (mat other : dvec) : dvec := match e with BIG => d_kron mat other | LITTLE => d_kron other mat end.
(** [v *= w] and [t += w]: sizes must agree (a size is never 1 here, unless there are no qubits). *)
Definition d_mul (a b : dvec) : option dvec := if Nat.eqb (size a) (size b) then Some (mkD (size a) (fun i => at_ a i * at_ b i)) else None.
Definition d_add (a b : dvec) : option dvec := if Nat.eqb (size a) (size b) then Some (mkD (size a) (fun i => at_ a i + at_ b i)) else None.
(** block_to_tensor.py:293-295: [_s.squeeze(0) * v]; a batch of values is broadcast against the vector. *)
Definition d_scale (s : list C) (v : dvec) : option dvec :=
  match s with
  | [x] => Some (mkD (size v) (fun i => x * at_ v i))
  | _ => d_mul (mkD (length s) (fun i => nth i s 0)) v
  end.

(** block_to_tensor.py:59-104 [_fill_identities] with diag_only=True. *)
Definition d_fill_step (e : endian) (block_mat : dvec) (qs : list nat) (q0 : nat) (mat : dvec) (i : nat) : dvec :=
  if Nat.eqb i q0 then d_kron_end e mat block_mat
  else if existsb (Nat.eqb i) qs then mat
  else d_kron_end e mat (diag_of IMAT).
Definition d_fill_identities (e : endian) (block_mat : tensor) (qubit_support full : list nat) : option dvec :=
  match sorted full, sorted qubit_support with
  | f0 :: rest, q0 :: qs =>
      let mat := if Nat.eqb q0 f0 then diag_of block_mat else diag_of IMAT in
      Some (fold_left (d_fill_step e (diag_of block_mat) (q0 :: qs) q0) rest mat)
  | _, _ => None
  end.

Section Diagonal.
  Variable values : expr -> list C.       (* evaluate(block.scale, values) *)
  (** the [qubit_support] passed down to the recursive calls *)
  Variable full : list nat.
  (** block_to_tensor.py:275-305 [block_to_diagonal] after its support is known; recursive calls use the default endianness. *)
  Fixpoint b2d (e : endian) (b : block) : option dvec :=
    if negb (is_diag_pauli b) then None
    else match b with
    | BChain bs | BKron bs =>
        fold_left (fun acc d => obind acc (fun v => obind d (fun w => d_mul v w))) (map (b2d BIG) bs) (Some (mkD (2 ^ length full) (fun _ => 1)))
    | BAdd bs =>
        fold_left (fun acc d => obind acc (fun v => obind d (fun w => d_add v w))) (map (b2d BIG) bs) (Some (mkD (2 ^ length full) (fun _ => 0)))
    | BScale b' s => obind (b2d BIG b') (fun v => d_scale (values s) v)
    | BPrim p q => obind (operations_dict p) (fun m => d_fill_identities e m [q] full)
    | _ => None
    end.
End Diagonal.
(** block_to_tensor.py:267-305 [block_to_diagonal]. *)
Definition block_to_diagonal (e : endian) (set_iter : list nat -> list nat) (qubit_support : option (list nat)) (use_full_support : bool)
  (values : expr -> list C) (b : block) : option dvec :=
  let full := match qubit_support with
              | Some l => l
              | None => if use_full_support then seq 0 (nqubits set_iter b) else locals (bsup set_iter b)
              end in
  b2d values full e b.

(** A sparse tensor: its size and its entries (row, column, value). *)
Record sparse := mkSp { sp_size : nat; sp_entries : list (nat * nat * C) }.
Definition zero_dec (c : C) : bool := if Req_EM_T (fst c) 0 then (if Req_EM_T (snd c) 0 then true else false) else false.
(** block_to_tensor.py:357-361, the branch SPARSEDIAGONAL of [block_to_tensor]; its arguments qubit_support and use_full_support are not
    used. *)
Definition block_to_sparse (e : endian) (set_iter : list nat -> list nat) (qubit_support : option (list nat)) (use_full_support : bool)
  (values : expr -> list C) (b : block) : option sparse :=
  obind (block_to_diagonal e set_iter None false values b) (fun t =>
    Some (mkSp (size t) (map (fun i => (i, i, at_ t i)) (filter (fun i => negb (zero_dec (at_ t i))) (seq 0 (size t)))))).
