(** Model of qadence/overlap.py. *)
From Coq Require Import String Reals List Arith Bool.
From Coquelicot Require Import Coquelicot.
From Coq Require Import List.
From Verif Require Import S_Ops M_QubitSupport M_Block M_BlockOps M_Tensor M_Transpile M_PSR M_Measure M_States.
From Verif Require M_Divergences.
Import ListNotations.
Open Scope R_scope.

(** [P0], [P1]: utils.py:291-318. *)
Definition P0 (q : nat) : block := BProj [false] [false] [q].
Definition P1 (q : nat) : block := BProj [true] [true] [q].
Section Order.
  Variable set_iter : list nat -> list nat.
  (** overlap.py:26-33. *)
  Definition cswap (c t1 t2 : nat) : option block :=
    obind (mk_kron set_iter [P0 c; BPrim PI_ t1; BPrim PI_ t2]) (fun a =>
    obind (mk_kron set_iter [P1 c; BSwap t1 t2]) (fun b => Some (op_add a b))).
  (** A dictionary {i: i + k for i in range(n)}; [None] is KeyError. *)
  Definition shift_map (n k i : nat) : option nat := if Nat.ltb i n then Some (i + k)%nat else None.
  (** overlap.py:36-48. *)
  Definition controlled_unitary (c : nat) (u : block) : option block :=
    let n := nqubits set_iter u in
    obind (reassign set_iter (shift_map n (c + 1)) u) (fun s =>
    obind (mk_kron set_iter (P0 c :: map (fun i => BPrim PI_ (c + i + 1)%nat) (seq 0 n))) (fun a =>
    obind (mk_kron set_iter [P1 c; s]) (fun b => Some (op_add a b)))).
  (** overlap.py:90-95, circuit.py:50-52: the circuit run by the compute-uncompute method. *)
  Definition compute_uncompute (bra ket : block) : block := BChain [bra; dagger ket].
  (** overlap.py:104-118: the circuit of the swap test on 2n+1 qubits. *)
  Definition swap_test (n : nat) (bra ket : block) : option block :=
    obind (reassign set_iter (shift_map n 1) bra) (fun b =>
    obind (reassign set_iter (shift_map n (n + 1)) ket) (fun k =>
    obind (mk_kron set_iter [b; k]) (fun states =>
    obind (osequence (map (fun i => cswap 0 (i + 1) (i + 1 + n)) (seq 0 n))) (fun cs =>
    Some (BChain [BPrim PH 0; states; BChain cs; BPrim PH 0]))))).
  (** overlap.py:127-140: the two circuits of the Hadamard test on n+1 qubits. *)
  Definition hadamard_test (bra ket : block) : option (block * block) :=
    obind (controlled_unitary 0 bra) (fun b =>
    obind (controlled_unitary 0 (dagger ket)) (fun k =>
    Some (BChain [BPrim PH 0; b; k; BPrim PH 0], BChain [BPrim PH 0; b; k; BPrim PS 0; BPrim PH 0]))).
End Order.

(** overlap.py:157-167, one row of each batch. *)
Definition overlap_exact (bra ket : vec) : R := Cmod (csum (fun p => (Cconj (fst p) * snd p)%C) (combine bra ket)) ^ 2.
(** overlap.py:198-200. *)
Definition overlap_compute_uncompute (bra : vec) : R := Cmod (nth 0 bra (RtoC 0)) ^ 2.
(** overlap.py:202-206.  [n_shots] and the number of qubits come from the first histogram; [None]: empty batch or histogram (IndexError).
    Indexing a Counter at a missing key gives 0. *)
Definition overlap_compute_uncompute_counts (bras : list counter) : option (list R) :=
  match bras with
  | (((k, v) :: r) as c0) :: _ => Some (map (fun c => cget c (repeat false (length k)) / rsum (map snd c0)) bras)
  | _ => None
  end.
(** torch.kron(|0><0|, identity) as a matrix: overlap.py:226-228, 272-274. *)
Definition proj_op (i j : nat) : C := if (Nat.eqb i 0 && Nat.eqb j 0)%bool then RtoC 1 else RtoC 0.
Definition ident_op (i j : nat) : C := if Nat.eqb i j then RtoC 1 else RtoC 0.
Definition meas_op (n i j : nat) : C := (proj_op (i / 2 ^ (n - 1)) (j / 2 ^ (n - 1)) * ident_op (i mod 2 ^ (n - 1)) (j mod 2 ^ (n - 1)))%C.
(** overlap.py:222-231. *)
Definition prob0 (v : vec) : R :=
  let n := Nat.log2 (length v) in
  fst (csum (fun i => Cconj (nth i v (RtoC 0)) * csum (fun j => meas_op n i j * nth j v (RtoC 0)) (seq 0 (length v)))%C (seq 0 (length v))).
Definition overlap_swap_test (v : vec) : R := 2 * prob0 v - 1.
(** overlap.py:277-278: here the conjugate is taken inside the matrix product. *)
Definition prob0_conj (v : vec) : R :=
  let n := Nat.log2 (length v) in
  fst (csum (fun i => nth i v (RtoC 0) * csum (fun j => meas_op n i j * Cconj (nth j v (RtoC 0))) (seq 0 (length v)))%C (seq 0 (length v))).
Definition overlap_hadamard_test (re im : vec) : R := (2 * prob0_conj re - 1) ^ 2 + (2 * prob0_conj im - 1) ^ 2.
(** overlap.py:233-242.  [k[0] == "0"]; [None]: an empty batch, an empty histogram or an empty key. *)
Definition prob0_counts (bras : list counter) : option (list R) :=
  match bras with
  | (((_ :: _) as c0)) :: _ =>
      if forallb (forallb (fun kv : list bool * R => match fst kv with [] => false | _ => true end)) bras
      then Some (map (fun c => rsum (map (fun kv : list bool * R => match fst kv with false :: _ => snd kv | _ => 0 end) c) / rsum (map snd c0)) bras)
      else None
  | _ => None
  end.
Definition overlap_swap_test_counts (bras : list counter) : option (list R) := option_map (map (fun p => 2 * p - 1)) (prob0_counts bras).
(** overlap.py:280-300.  [n_shots] of both estimates is the total of the first real-part histogram. *)
Definition overlap_hadamard_test_counts (res ims : list counter) : option (list R) :=
  match res with
  | (((_ :: _) as c0)) :: _ =>
      if (forallb (forallb (fun kv : list bool * R => match fst kv with [] => false | _ => true end)) res &&
          forallb (forallb (fun kv : list bool * R => match fst kv with [] => false | _ => true end)) ims)%bool
      then let est c := rsum (map (fun kv : list bool * R => match fst kv with false :: _ => snd kv | _ => 0 end) c) / rsum (map snd c0) in
           Some (map (fun p => (2 * est (fst p) - 1) ^ 2 + (2 * est (snd p) - 1) ^ 2) (combine res ims))
      else None
  | _ => None
  end.


(** overlap.py:174-184, one pair. *)
Definition overlap_jensen_shannon (p q : M_Divergences.counter) : option R := option_map (fun d => 1 - d) (M_Divergences.js_divergence p q).

(** Parameter dictionaries: name to batch of values.  Simplification: the tensors of one dictionary have equal lengths. *)
Definition dict := list (string * list R).
Definition batch_size (d : dict) : nat := match d with [] => 0%nat | (_, v) :: _ => length v end.
Fixpoint dget (d : dict) (k : string) : option (list R) := match d with [] => None | (k', v) :: r => if String.eqb k' k then Some v else dget r k end.
(** [dict.update]. *)
Definition dset (d : dict) (k : string) (v : list R) : dict :=
  if existsb (fun e => String.eqb (fst e) k) d then map (fun e => if String.eqb (fst e) k then (k, v) else e) d else d ++ [(k, v)].
Definition dupdate (d e : dict) : dict := fold_left (fun a kv => dset a (fst kv) (snd kv)) e d.
Inductive method := EXACT | JENSEN_SHANNON | COMPUTE_UNCOMPUTE | SWAP_TEST | HADAMARD_TEST.
(** overlap.py:346-407.  [nfeat] is the size of the union of the feature names.  The result is [param_values["bra"], param_values["ket"]];
    [None] is ValueError. *)
Definition process_param_values (m : method) (nfeat : nat) (bra ket : dict) : option (dict * option dict) :=
  let nb := batch_size bra in
  let nk := batch_size ket in
  if Nat.eqb nfeat 2 then
    let bra' := map (fun kv => (fst kv, concat (repeat (snd kv) nk))) bra in
    let idxs := concat (map (fun i => repeat i nb) (seq 0 nk)) in
    let ket' := map (fun kv : string * list R => (fst kv, map (fun i => nth i (snd kv) 0) idxs)) ket in
    match m with
    | EXACT | JENSEN_SHANNON => Some (bra', Some ket')
    | COMPUTE_UNCOMPUTE | SWAP_TEST => Some (dupdate bra' ket', None)
    | HADAMARD_TEST => Some (dupdate bra' ket', Some (dupdate bra' ket'))
    end
  else if Nat.ltb nfeat 2 then
    if (Nat.eqb nb nk || Nat.eqb nb 0 || Nat.eqb nk 0)%bool then Some (bra, Some ket) else None
  else None.
(** overlap.py:437-443: entry (i, j) of the result. *)
Definition reshape_overlap (nfeat : nat) (bra ket : dict) (flat : list R) (i j : nat) : R :=
  if Nat.ltb nfeat 2 then nth i flat 0 else nth (j * Nat.max (batch_size bra) 1 + i) flat 0.
