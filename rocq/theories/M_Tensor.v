(** Model of qadence/blocks/block_to_tensor.py with torch matrices as (size, entries).

    Simplifications: the batch dimension is 1; parameters are given by their values ([ev], [ang], see
    M_Block.v) instead of the embedded dictionary; device arguments are ignored; [matrix_exp] is the
    mathematical exponential series. *)
From Coq Require Import String Reals List Arith Bool.
From Coquelicot Require Import Coquelicot.
From Coq Require Import List.
From Verif Require Import S_Ops M_QubitSupport M_Block M_BlockOps.
Import ListNotations.
Open Scope R_scope.
Open Scope C_scope.

Record tensor := mkT { dim : nat; ent : nat -> nat -> C }.

(** torch.kron *)
Definition t_kron (A B : tensor) : tensor :=
  mkT (dim A * dim B)
      (fun i j => ent A (i / dim B) (j / dim B) * ent B (i mod dim B) (j mod dim B)).
(** torch.matmul: sizes must agree *)
Definition t_mul (A B : tensor) : option tensor :=
  if Nat.eqb (dim A) (dim B)
  then Some (mkT (dim A) (fun i j => csum (fun k => ent A i k * ent B k j) (seq 0 (dim A))))
  else None.
(** torch addition: sizes must agree (sizes are never 1 here, so there is no broadcasting) *)
Definition t_add (A B : tensor) : option tensor :=
  if Nat.eqb (dim A) (dim B) then Some (mkT (dim A) (fun i j => ent A i j + ent B i j)) else None.
Definition t_scale (c : C) (A : tensor) : tensor := mkT (dim A) (fun i j => c * ent A i j).
(** torch.linalg.matrix_exp *)
Fixpoint t_pow (A : tensor) (k : nat) : nat -> nat -> C :=
  match k with
  | O => fun i j => if Nat.eqb i j then 1 else 0
  | S m => fun i j => csum (fun l => ent A i l * t_pow A m l j) (seq 0 (dim A))
  end.
Definition t_exp (A : tensor) : tensor :=
  mkT (dim A) (fun i j => (Series (fun k => fst (t_pow A k i j) / INR (fact k))%R,
                           Series (fun k => snd (t_pow A k i j) / INR (fact k))%R)).

Definition t2 (a b c d : C) : tensor :=
  mkT 2 (fun i j => match i, j with O, O => a | O, S _ => b | S _, O => c | S _, S _ => d end).

(** block_to_tensor.py:26-41 *)
Definition ZEROMAT := t2 0 0 0 0.
Definition IMAT := t2 1 0 0 1.
Definition XMAT := t2 0 1 1 0.
Definition YMAT := t2 0 (- Ci) Ci 0.
Definition ZMAT := t2 1 0 0 (- (1)).
Definition NMAT := t2 0 0 0 1.
Definition SMAT := t2 1 0 0 Ci.
Definition SDAGMAT := t2 1 0 0 (- Ci).
Definition TMAT := t2 1 0 0 (cos (PI / 4), sin (PI / 4))%R.
Definition HMAT := t2 (/ sqrt 2) (/ sqrt 2) (/ sqrt 2) (- / sqrt 2).

(** block_to_tensor.py:44-56 [OPERATIONS_DICT], looked up by block name.  [TDagger]'s name is "T_dagger"
    (operations/primitive.py:325), which is not a key; [N] ignores its state. *)
Definition operations_dict (p : prim) : option tensor :=
  match p with
  | PZero => Some ZEROMAT
  | PI_ => Some IMAT
  | PX => Some XMAT
  | PY => Some YMAT
  | PZ => Some ZMAT
  | PS => Some SMAT
  | PSdg => Some SDAGMAT
  | PT => Some TMAT
  | PTdg => None
  | PH => Some HMAT
  | PN _ => Some NMAT
  end.

(** Python's [sorted] on integers. *)
Fixpoint insert (a : nat) (l : list nat) : list nat :=
  match l with [] => [a] | b :: r => if Nat.leb a b then a :: l else b :: insert a r end.
Fixpoint sorted (l : list nat) : list nat := match l with [] => [] | a :: r => insert a (sorted r) end.

Inductive endian := BIG | LITTLE.
Definition kron_end (e : endian) (mat other : tensor) : tensor :=
  match e with BIG => t_kron mat other | LITTLE => t_kron other mat end.

(** block_to_tensor.py:59-104 [_fill_identities] (diag_only=False). *)
Definition fill_step (e : endian) (block_mat : tensor) (qs : list nat) (q0 : nat) (mat : tensor) (i : nat) : tensor :=
  if Nat.eqb i q0 then kron_end e mat block_mat
  else if existsb (Nat.eqb i) qs then mat
  else kron_end e mat IMAT.
Definition t_fill_identities (e : endian) (block_mat : tensor) (qubit_support full : list nat) : option tensor :=
  match sorted full, sorted qubit_support with
  | f0 :: rest, q0 :: qs =>
      let mat := if Nat.eqb q0 f0 then block_mat else IMAT in
      Some (fold_left (fill_step e block_mat (q0 :: qs) q0) rest mat)
  | _, _ => None
  end.

(** block_to_tensor.py:107-126 [_rot_matrices] *)
Definition rot_matrices (theta : R) (g : tensor) : tensor :=
  mkT 2 (fun i j => RtoC (cos (theta / 2)) * ent IMAT i j - Ci * RtoC (sin (theta / 2)) * ent g i j).
(** block_to_tensor.py:147-157 [_phase_matrix] *)
Definition phase_matrix (theta : R) : tensor :=
  mkT 2 (fun i j => RtoC (/ 2) * (ent IMAT i j + ent ZMAT i j) +
                    ((cos theta, sin theta) : C) * RtoC (/ 2) * (ent IMAT i j - ent ZMAT i j)).
(** block_to_tensor.py:129-144 [_u_matrix] *)
Definition u_matrix (phi theta omega : R) : option tensor :=
  match t_mul (rot_matrices theta YMAT) (rot_matrices phi ZMAT) with
  | Some res => t_mul (rot_matrices omega ZMAT) res
  | None => None
  end.

(** states.py:98-105: the position of the 1 in product_state(bits). *)
Definition proj_matrix (kt br : list bool) : tensor :=
  (* block_to_tensor.py:498: torch.kron(ket, bra.T) with ket of shape (1, d) and bra.T of shape (d, 1) has
     entry [i, j] = ket[0, j] * bra[0, i] *)
  mkT (2 ^ length kt)
      (fun i j => (if Nat.eqb j (bits_to_nat kt) then 1 else 0) * (if Nat.eqb i (bits_to_nat br) then 1 else 0)).

(** Loops over already converted blocks: block_to_tensor.py:384-395 (chain, kron) and 397-407 (add). *)
Definition eye_n (n : nat) : tensor := Nat.iter (n - 1) (fun m => t_kron m IMAT) IMAT.
Definition zero_n (n : nat) : tensor := Nat.iter (n - 1) (fun m => t_kron m ZEROMAT) ZEROMAT.
Definition obind {A B} (x : option A) (f : A -> option B) : option B :=
  match x with Some a => f a | None => None end.
Definition chain_t (n : nat) (ms : list (option tensor)) : option tensor :=
  fold_left (fun acc m => obind acc (fun mat => obind m (fun other => t_mul other mat))) ms (Some (eye_n n)).
Definition add_t (n : nat) (ms : list (option tensor)) : option tensor :=
  fold_left (fun acc m => obind acc (fun mat => obind m (fun other => t_add mat other))) ms (Some (zero_n n)).

Definition nodupb (l : list nat) : bool := if Nat.eqb (length (nodup Nat.eq_dec l)) (length l) then true else false.

Section Emb.
  Variable e : endian.
  Variable rho : env.
  (** the [qubit_support] argument passed down to every recursive call *)
  Variable full : list nat.
  Let n := length full.

  Definition leaf (m : option tensor) (qs : list nat) : option tensor :=
    obind m (fun t => t_fill_identities e t qs full).

  (** block_to_tensor.py:175-204 [_controlled_block_with_params] and 448-453: the matrix of
      [kron(I(control[0]) - p1, I(target)) + kron(p1, U)] with [p1 = kron(P1(q) for q in control)].
      The kron constructors fail unless controls and target are distinct. *)
  Definition p1_t (cs : list nat) : option tensor :=
    chain_t n (map (fun c => leaf (Some (proj_matrix [true] [true])) [c]) cs).
  Definition ctrl_t (cs : list nat) (t : nat) (u : option tensor) : option tensor :=
    match cs with
    | [] => None
    | c0 :: _ =>
        if nodupb (cs ++ [t]) then
          let p0 := add_t n [leaf (Some IMAT) [c0]; obind (p1_t cs) (fun m => Some (t_scale (- (1)) m))] in
          add_t n [chain_t n [p0; leaf (Some IMAT) [t]]; chain_t n [p1_t cs; u]]
        else None
    end.
  Definition cx_t (cs : list nat) (t : nat) : option tensor := ctrl_t cs t (leaf (Some XMAT) [t]).

  (** The target of a control block: block_to_tensor.py:191-193, only single-qubit targets pass the kron
      constructors. *)
  Definition single_target (qs : list nat) : option nat := match qs with [t] => Some t | _ => None end.

  (** block_to_tensor.py:363-513 [_block_to_tensor_embedded]. *)
  Fixpoint b2t (set_iter : list nat -> list nat) (b : block) : option tensor :=
    match b with
    | BChain bs | BKron bs => chain_t n (map (b2t set_iter) bs)
    | BAdd bs => add_t n (map (b2t set_iter) bs)
    | BEvo g t =>
        match locals (bsup set_iter g) with
        | [] => None
        | _ => obind (b2t set_iter g) (fun gm => Some (t_exp (t_scale (- Ci * ang rho t) gm)))
        end
    | BCSwap c t1 t2 => chain_t n [cx_t [c; t2] t1; cx_t [c; t1] t2; cx_t [c; t2] t1]
    | BCtrl cs b' | BPCtrl cs b' =>
        match single_target (locals (bsup set_iter b')) with
        | Some t => ctrl_t cs t (b2t set_iter b')
        | None => None
        end
    | BScale b' s => obind (b2t set_iter b') (fun m => Some (t_scale (ev rho s) m))
    | BRot RX_ q t => leaf (Some (rot_matrices (ang rho t) XMAT)) [q]
    | BRot RY_ q t => leaf (Some (rot_matrices (ang rho t) YMAT)) [q]
    | BRot RZ_ q t => leaf (Some (rot_matrices (ang rho t) ZMAT)) [q]
    | BRot RPhase q t => leaf (Some (phase_matrix (ang rho t))) [q]
    | BU q a c d => leaf (u_matrix (ang rho a) (ang rho c) (ang rho d)) [q]
    | BMat m qs => leaf (Some (mkT (2 ^ length qs) m)) qs
    | BSwap c t => chain_t n [cx_t [c] t; cx_t [t] c; cx_t [c] t]
    | BPrim p q => leaf (operations_dict p) [q]
    | BProj kt br qs => leaf (Some (proj_matrix kt br)) qs
    end.
End Emb.

(** block_to_tensor.py:309-360 [block_to_tensor] (DENSE), with [qubit_support=None]:
    [use_full_support] selects range(n_qubits) (374-378). *)
Definition block_to_tensor (e : endian) (set_iter : list nat -> list nat) (use_full_support : bool) (rho : env) (b : block) : option tensor :=
  let full := if use_full_support then seq 0 (nqubits set_iter b) else locals (bsup set_iter b) in
  b2t e rho full set_iter b.
