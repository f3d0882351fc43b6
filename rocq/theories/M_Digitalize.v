(** Model of qadence/transpile/digitalize.py on blocks, and of U.digital_decomposition (qadence/operations/parametric.py).
    [None] stands for a raised exception.  The circuit version (digitalize.py:42-44) applies it to the block of the circuit and builds a new
    circuit on the same number of qubits, without the register; tags are not modelled. *)
From Coq Require Import String Reals List Arith Bool.
From Coquelicot Require Import Coquelicot.
From Coq Require Import List.
From Verif Require Import S_Ops M_QubitSupport M_Block M_BlockOps M_Tensor M_Transpile M_Pauli M_Decompose.
Import ListNotations.

(** parametric.py:197-202. *)
Definition u_decomposition (q : nat) (phi theta omega : expr) : block := BChain [BRot RZ_ q phi; BRot RY_ q theta; BRot RZ_ q omega].
Section WithSetOrder.
  Variable set_iter : list nat -> list nat.
  (** digitalize.py:30-39. *)
  Fixpoint digitalize (approximation : lts_order) (b : block) : option block :=
    match b with
    | BChain bs => obind (osequence (map (digitalize approximation) bs)) (construct set_iter KChain)
    | BKron bs => obind (osequence (map (digitalize approximation) bs)) (construct set_iter KKron)
    | BAdd bs => obind (osequence (map (digitalize approximation) bs)) (construct set_iter KAdd)
    | BEvo g t => digital_decomposition set_iter g t approximation
    | BU q phi theta omega => Some (u_decomposition q phi theta omega)
    | _ => Some b
    end.
End WithSetOrder.
