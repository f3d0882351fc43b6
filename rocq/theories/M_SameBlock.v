(** Model of [assert_same_block] (qadence/blocks/utils.py:542-557), which the project's tests of daggers rely on.

    Classes, supports and comparisons of expressions are those of M_Equality.v, with the simplifications stated there.  The name of a block is
    a constant of its class, so that the second assertion follows from the first.  [expressions] (of the generator of a HamEvo) is an argument.
    The result is true if no assertion fails. *)
From Coq Require Import String Reals List Arith Bool.
From Coquelicot Require Import Coquelicot.
From Coq Require Import List.
From Verif Require Import M_QubitSupport M_Block M_BlockOps M_Equality.
Import ListNotations.

(** utils.py:543 [type(b1) == type(b2)]; a controlled operation has the class made for its target *)
Fixpoint same_class (a b : block) : bool :=
  match a, b with
  | BPrim p _, BPrim p' _ => Nat.eqb (prim_class p) (prim_class p')
  | BRot r _ _, BRot r' _ _ => Nat.eqb (rot_class r) (rot_class r')
  | BCtrl _ x, BCtrl _ y | BPCtrl _ x, BPCtrl _ y => same_class x y
  | BProj _ _ _, BProj _ _ _ | BMat _ _, BMat _ _ | BSwap _ _, BSwap _ _ | BCSwap _ _ _, BCSwap _ _ _ | BU _ _ _ _, BU _ _ _ _ => true
  | BScale _ _, BScale _ _ | BEvo _ _, BEvo _ _ | BChain _, BChain _ | BKron _, BKron _ | BAdd _, BAdd _ => true
  | _, _ => false
  end.
Section SameBlock.
  Variable set_iter : list nat -> list nat.
  Variable sym_eq : expr -> expr -> bool.
  Variable expressions : block -> list expr.
  (** [block.parameters.expressions()] *)
  Fixpoint params (b : block) : list expr :=
    match b with
    | BRot _ _ e => [e]
    | BU _ phi theta omega => [phi; theta; omega]
    | BPCtrl _ x => params x
    | BScale _ e => [e]
    | BEvo g t => t :: expressions g
    | _ => []
    end.
  (** utils.py:542-557 *)
  Definition assert_same_block (a b : block) : bool :=
    same_class a b && same_support set_iter a b &&
    (if parametric_class a && parametric_class b
     then Nat.eqb (length (params a)) (length (params b)) && forallb (fun p => expr_eq sym_eq (fst p) (snd p)) (combine (params a) (params b))
     else true).
End SameBlock.
