(** Model of qadence/states.py: state vectors and the blocks that prepare them. *)
From Coq Require Import String Reals List Arith Bool ZArith.
From Coquelicot Require Import Coquelicot.
From Coq Require Import List.
From Verif Require Import S_Ops S_Den M_QubitSupport M_Block M_BlockOps M_Basis M_PSR.
Import ListNotations.
Open Scope R_scope.

(** A state vector: its amplitudes in index order.  A batch is a list of them. *)
Definition vec := list C.
Definition chr (b : bool) : ch := if b then C1 else C0.
(** [zeros(2**n)] with a 1 written at index [k]. *)
Definition basis_vec (n k : nat) : vec := map (fun i => if Nat.eqb i k then RtoC 1 else RtoC 0) (seq 0 (2 ^ n)).
(** states.py:98-105.  Strings of 0 and 1 only.  [None] is the ValueError of [basis_to_int] on the empty string. *)
Definition state_from_bitstring (bs : list bool) (batch : nat) (e : endian) : option (list vec) :=
  option_map (fun k => repeat (basis_vec (length bs) (Z.to_nat k)) batch) (basis_to_int (map chr bs) e).
(** states.py:150-193. *)
Definition zero_state (n batch : nat) : option (list vec) := state_from_bitstring (repeat false n) batch Big.
Definition one_state (n batch : nat) : option (list vec) := state_from_bitstring (repeat true n) batch Big.
(** states.py:127-147. *)
Definition uniform_state (n batch : nat) : list vec := repeat (repeat (RtoC (1 / sqrt (2 ^ n))) (2 ^ n)) batch.
(** states.py:259-278. *)
Definition vadd (v w : vec) : vec := map (fun p => (fst p + snd p)%C) (combine v w).
Definition vscale (c : C) (v : vec) : vec := map (fun z => (c * z)%C) v.
Definition ghz_state (n batch : nat) : option (list vec) :=
  match zero_state n batch, one_state n batch with
  | Some zs, Some os => Some (map (fun p => vscale (RtoC (1 / sqrt 2)) (vadd (fst p) (snd p))) (combine zs os))
  | _, _ => None
  end.
(** states.py:235-256; [positions] are the random draws. *)
Definition rand_product_state (n : nat) (positions : list nat) : list vec := map (basis_vec n) positions.
(** states.py:58-64; [xs] are the draws -log(rand), [phases] the random phases. *)
Definition rand_haar_fast (xs phases : list R) : vec :=
  map (fun p => (RtoC (sqrt (fst p / rsum xs)) * cis (snd p))%C) (combine xs phases).

Section Order.
  Variable set_iter : list nat -> list nat.
  (** states.py:86-95.  [None]: KronBlock refuses an empty list (composite.py:219-235). *)
  Definition from_op (op : prim) (n : nat) : option block := mk_kron set_iter (map (BPrim op) (seq 0 n)).
  Definition product_block (bs : list bool) : option block :=
    mk_kron set_iter (map (fun ib => BPrim (if snd ib : bool then PX else PI_) (fst ib)) (combine (seq 0 (length bs)) bs)).
  (** states.py:351-413. *)
  Definition uniform_block := from_op PH.
  Definition one_block := from_op PX.
  Definition zero_block := from_op PI_.
End Order.
(** states.py:454-473. *)
Definition ghz_block (n : nat) : block := BChain [BPrim PH 0%nat; BChain (map (fun i => BCtrl [i - 1]%nat (BPrim PX i)) (seq 1 (n - 1)))].
(** states.py:107-121 for one batch entry; [draws] are the random gates and angles. *)
Definition random_rotations (draws : list (rot * R)) : block :=
  BChain (map (fun id => BRot (fst (snd id)) (fst id) (ECst (RtoC (snd (snd id))))) (combine (seq 0 (length draws)) draws)).

(** states.py:499-519, one vector. *)
Definition sq (z : C) : R := fst z ^ 2 + snd z ^ 2.
Definition normalize (v : vec) : vec := map (fun z => (z / RtoC (sqrt (rsum (map sq v))))%C) v.
(** states.py:522-544: [torch.allclose] with rtol 0. *)
Definition is_normalized (vs : list vec) (atol : R) : bool :=
  forallb (fun v => if Rle_dec (Rabs (rsum (map sq v) - 1)) atol then true else false) vs.
(** states.py:479-496: [Categorical] divides the given weights by their sum. *)
Definition pmf (v : vec) : list R :=
  let w := map (fun z => Cmod (z * z)%C) v in map (fun x => x / rsum w) w.
(** states.py:331-347. *)
Definition density_mat (v : vec) (i j : nat) : C := (nth i v (RtoC 0) * Cconj (nth j v (RtoC 0)))%C.
