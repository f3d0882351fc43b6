(** Model of the declared spectra of operations: the properties [eigenvalues] and [generator] of qadence/operations/primitive.py,
    operations/parametric.py, operations/control_ops.py, operations/ham_evo.py and blocks/primitive.py:262-267 (ScaleBlock).
    The property [eigenvalues_generator] is in M_Gradient.v.

    [None]: an exception, or a block this property is not modelled for: projectors, compositions and matrices, whose eigenvalues torch
    computes (blocks/abstract.py:66-73).  Simplifications: a parameter is read at one value (no batch); a controlled block that is no
    operation of the library has no declared spectrum. *)
From Coq Require Import String Reals List Arith Bool.
From Coquelicot Require Import Coquelicot.
From Coq Require Import List.
From Verif Require Import S_Ops M_Block M_BlockOps.
Import ListNotations.
Open Scope R_scope.

(** torch.cos and torch.sin of the value; torch.exp(1j v) *)
Definition cexp_i (t : R) : C := (cos t, sin t).
(** parametric.py:87-90, 119-122, 151-154 [lmbd] of half the angle *)
Definition lmbd (t : R) : C := (cos (t / 2), - sin (t / 2)).

Section Eigenvalues.
  (** torch.linalg.eigvals of the matrix of the generator (utils.py:222-242) *)
  Variable eigvals : block -> list R.
  (** operations/primitive.py: 47 (X), 68 (Y), 89 (Z), 124 (I), 176 (N), 198 (S), 223 (SDagger), 248 (H), 264 (Zero), 310 (T: the principal square
      root of i), 340 (TDagger: that of -i), 376 (SWAP); parametric.py: 55, 87, 119, 151, 186 (U: torch.cat of numbers of numpy, TypeError);
      control_ops.py: 48 (CNOT), 78 (MCZ: torch.cat of a tensor without dimension, RuntimeError), 125, 168, 207, 252, 320 (CSWAP), 348 (Toffoli);
      ham_evo.py:189; blocks/primitive.py:265-267. *)
  Fixpoint eigenvalues (rho : env) (b : block) : option (list C) :=
    match b with
    | BPrim (PX | PY | PZ | PH) _ => Some [RtoC (-1); RtoC 1]
    | BPrim PI_ _ => Some [RtoC 1; RtoC 1]
    | BPrim (PN _) _ => Some [RtoC 0; RtoC 1]
    | BPrim PS _ => Some [RtoC 1; Ci]
    | BPrim PSdg _ => Some [RtoC 1; (- Ci)%C]
    | BPrim PT _ => Some [RtoC 1; cexp_i (PI / 4)]
    | BPrim PTdg _ => Some [RtoC 1; cexp_i (- (PI / 4))]
    | BPrim PZero _ => Some [RtoC 0; RtoC 0]
    | BSwap _ _ => Some [RtoC (-1); RtoC 1; RtoC 1; RtoC 1]
    | BCSwap _ _ _ => Some (RtoC 1 :: RtoC (-1) :: repeat (RtoC 1) 6)
    | BCtrl cs (BPrim PX _) => Some (RtoC (-1) :: repeat (RtoC 1) (2 ^ S (length cs) - 1))
    | BRot RPhase _ e => Some [RtoC 1; cexp_i (ang rho e)]
    | BRot _ _ e => Some [lmbd (ang rho e); Cconj (lmbd (ang rho e))]
    | BPCtrl cs (BRot RPhase _ e) => Some (repeat (RtoC 1) (2 ^ S (length cs) - 1) ++ [cexp_i (ang rho e)])
    | BPCtrl cs (BRot _ _ e) => Some (repeat (RtoC 1) (2 ^ S (length cs) - 2) ++ [lmbd (ang rho e); Cconj (lmbd (ang rho e))])
    | BEvo g t => Some (map (fun l => cexp_i (- (ang rho t * l))) (eigvals g))
    | BScale b' _ => eigenvalues rho b'
    | _ => None
    end.
End Eigenvalues.

(** a number times a block: abstract.py:89-98 *)
Definition times (c : R) (b : block) : block := op_scale b (ECst (RtoC c)).
(** control_ops.py: 40, 70, 113, 156, 195, 238, 334: the controls, and a block on the target *)
Definition when (cs : list nat) (b : block) : block := BKron (map (BPrim (PN true)) cs ++ [b]).
(** operations/primitive.py:362-369 *)
Definition swap_generator (c t : nat) : block :=
  let a11 := times (1 / 2) (op_sub (BPrim PZ c) (BPrim PI_ c)) in
  let a22 := times (- (1 / 2)) (op_add (BPrim PZ t) (BPrim PI_ t)) in
  let a12 := times (1 / 2) (op_add (BChain [BPrim PX c; BPrim PZ c]) (BPrim PX c)) in
  let a21 := times (1 / 2) (op_add (BChain [BPrim PZ t; BPrim PX t]) (BPrim PX t)) in
  op_add (op_add (op_add (BKron [times (-1) a22; a11]) (BKron [times (-1) a11; a22])) (BKron [a12; a21])) (BKron [a21; a12]).
(** control_ops.py:298-312 *)
Definition cswap_generator (c t1 t2 : nat) : block :=
  let a00m := op_neg (BPrim (PN true) c) in
  let a00p := op_neg (BPrim (PN false) c) in
  let a11 := op_neg (BPrim (PN true) t1) in
  let a22 := op_neg (BPrim (PN false) t2) in
  let a12 := times (1 / 2) (op_add (BChain [BPrim PX t1; BPrim PZ t1]) (BPrim PX t1)) in
  let a21 := times (1 / 2) (op_add (BChain [BPrim PZ t2; BPrim PX t2]) (BPrim PX t2)) in
  op_add (BKron [a00m; BPrim PI_ t1; BPrim PI_ t2])
    (op_add (op_add (op_add (BKron [a00p; times (-1) a22; a11]) (BKron [a00p; times (-1) a11; a22])) (BKron [a00p; a12; a21])) (BKron [a00p; a21; a12])).

(** operations/primitive.py: 39, 60, 81 (X, Y, Z), 116 (I), 190, 215 (S), 240 (H), 256 (Zero), 302, 332 (T), 362-369 (SWAP);
    parametric.py: 43, 75, 107, 139, 174; control_ops.py: 40, 70, 113, 156, 195, 238, 298-312, 334.  Projectors raise ValueError. *)
Definition generator (b : block) : option block :=
  match b with
  | BPrim ((PX | PY | PZ | PI_) as p) q => Some (BPrim p q)
  | BPrim (PS | PSdg | PT | PTdg) q => Some (op_sub (BPrim PI_ q) (BPrim PZ q))
  | BPrim PH q => Some (times (1 / sqrt 2) (op_sub (op_add (BPrim PX q) (BPrim PZ q)) (times (sqrt 2) (BPrim PI_ q))))
  | BPrim PZero _ => Some (times 0 (BPrim PI_ 0))
  | BSwap c t => Some (swap_generator c t)
  | BCSwap c t1 t2 => Some (cswap_generator c t1 t2)
  | BRot RPhase q _ => Some (op_sub (BPrim PI_ q) (BPrim PZ q))
  | BRot RX_ q _ => Some (BPrim PX q)
  | BRot RY_ q _ => Some (BPrim PY q)
  | BRot RZ_ q _ => Some (BPrim PZ q)
  | BU q _ _ _ => Some (BChain [BPrim PZ q; BPrim PY q; BPrim PZ q])
  | BCtrl cs (BPrim PX t) => Some (when cs (op_sub (BPrim PX t) (BPrim PI_ t)))
  | BCtrl cs (BPrim PZ t) => Some (when cs (op_sub (BPrim PZ t) (BPrim PI_ t)))
  | BPCtrl cs (BRot RPhase t _) => Some (when cs (op_sub (BPrim PZ t) (BPrim PI_ t)))
  | BPCtrl cs (BRot RX_ t _) => Some (when cs (BPrim PX t))
  | BPCtrl cs (BRot RY_ t _) => Some (when cs (BPrim PY t))
  | BPCtrl cs (BRot RZ_ t _) => Some (when cs (BPrim PZ t))
  | _ => None
  end.
