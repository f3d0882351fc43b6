(** Model of qadence/decompose.py and of HamEvo.digital_decomposition (qadence/operations/ham_evo.py). *)
From Coq Require Import String Reals List Arith Bool.
From Coquelicot Require Import Coquelicot.
From Coq Require Import List.
From Verif Require Import S_Ops M_QubitSupport M_Block M_BlockOps M_Transpile M_Pauli.
Import ListNotations.
Open Scope R_scope.

(** types.py:132-140. *)
Inductive lts_order := BASIC | ST2 | ST4.
(** Python [min] and [max] of a list; [None] is ValueError. *)
Definition py_min (l : list nat) : option nat := match l with [] => None | x :: r => Some (fold_left Nat.min r x) end.
Definition py_max (l : list nat) : option nat := match l with [] => None | x :: r => Some (fold_left Nat.max r x) end.
(** [l * k] on lists. *)
Definition times {A} (k : nat) (l : list A) : list A := concat (repeat l k).
Definition CNOT (c t : nat) : block := BCtrl [c] (BPrim PX t).

Section Order.
  (** Iteration order of Python sets (used by [qubit_support] of composite blocks). *)
  Variable set_iter : list nat -> list nat.
  (** [block.qubit_support[0]]; [None] is IndexError. *)
  Definition first_qubit (b : block) : option nat := hd_error (locals (bsup set_iter b)).
  (** decompose.py:24-41. *)
  Definition change_to_z_basis (b : block) (sign : R) : option (list block) :=
    match first_qubit b with
    | None => None
    | Some q => Some (match b with
                      | BPrim PX _ => [BPrim PH q]
                      | BPrim PY _ => [BRot RX_ q (ECst (RtoC (sign * PI / 2)))]
                      | _ => []
                      end)
    end.
  (** decompose.py:117 [len(get_pauli_blocks(bl))] with [raises=False]: other primitives are skipped. *)
  Definition n_paulis (b : block) : nat := length (filter is_pauli (primitive_blocks b)).
  (** decompose.py:122, and the indexing [blist[i]] of 127-129: composites are indexable, a ScaleBlock is not (TypeError). *)
  Definition as_list (b : block) : option (list block) :=
    if Nat.leb 2 (n_paulis b) then match b with BChain bs | BKron bs | BAdd bs => Some bs | _ => None end else Some [b].
  (** decompose.py:113-145: the gates of one term.  [fact = 2.0 * parameter * scale]. *)
  Definition decompose_term (t : block) (scale parameter : expr) : option (list block) :=
    match as_list t with
    | None => None
    | Some blist =>
        match osequence (map first_qubit blist) with
        | None => None
        | Some indx =>
            match py_min indx, py_max indx, osequence (map (fun b => change_to_z_basis b 1) blist), osequence (map (fun b => change_to_z_basis b (-1)) (rev blist)) with
            | Some lo, Some hi, Some fwd, Some bkd =>
                let cnots := map (fun i => CNOT i (i + 1)) (seq lo (hi - lo)) in
                Some (concat fwd ++ cnots ++ [BRot RZ_ hi (EMul (EMul (ECst (RtoC 2)) parameter) scale)] ++ rev cnots ++ concat bkd)
            | _, _, _, _ => None
            end
        end
    end.
  (** decompose.py:105-147. *)
  Definition decompose_pauli_exp (block_list : list (block * expr)) (parameter : expr) : option (list block) :=
    option_map (@concat block) (osequence (map (fun bs => decompose_term (fst bs) (snd bs) parameter) block_list)).
  (** decompose.py:44-67: ten steps; the evaluation of the parameter only serves a warning. *)
  Definition max_steps : nat := 10.
  Definition t_delta (parameter : expr) : expr := EMul parameter (ECst (RtoC (/ INR max_steps))).
  (** decompose.py:88-91; [None]: also the IndexError of an empty list. *)
  Definition st2 (block_list : list (block * expr)) (parameter : expr) : option (list block) :=
    match rev block_list with
    | [] => None
    | lst :: r =>
        match decompose_pauli_exp (rev r) (EMul (t_delta parameter) (ECst (RtoC (/ 2)))), decompose_pauli_exp [lst] (t_delta parameter) with
        | Some outer, Some inner => Some (times max_steps (outer ++ inner ++ rev outer))
        | _, _ => None
        end
    end.
  (** decompose.py:94 [(4 - 4 ** (1 / 3)) ** -1]. *)
  Definition p2 : R := / (4 - Rpower 4 (1 / 3)).
  (** decompose.py:93-99. *)
  Definition st4 (block_list : list (block * expr)) (parameter : expr) : option (list block) :=
    match st2 block_list (EMul (t_delta parameter) (ECst (RtoC p2))), st2 block_list (EMul (ECst (RtoC (1 - 4 * p2))) (t_delta parameter)) with
    | Some outer, Some inner => Some (times max_steps (times 2 outer ++ inner ++ times 2 outer))
    | _, _ => None
    end.
  (** decompose.py:70-102 called with a block. *)
  Definition lie_trotter_suzuki (b : block) (parameter : expr) (order : lts_order) : option (list block) :=
    let block_list := unroll_block_with_scaling b in
    match order with
    | BASIC => decompose_pauli_exp block_list parameter
    | ST2 => st2 block_list parameter
    | ST4 => st4 block_list parameter
    end.
  (** ham_evo.py:207-268, for a generator given as a block.  The result of [block_is_commuting_hamiltonian] is discarded: only the TypeError
      it raises (on a ChainBlock) keeps the requested order.  [None]: NotImplementedError and the errors above. *)
  Definition digital_decomposition (generator : block) (parameter : expr) (approximation : lts_order) : option block :=
    if block_is_qubit_hamiltonian generator then
      let order := match block_is_commuting_hamiltonian generator with Some _ => BASIC | None => approximation end in
      option_map BChain (lie_trotter_suzuki generator parameter order)
    else None.
End Order.
