(** Blocks: the classes of qadence/blocks and qadence/operations as a syntax tree.

    Not represented here: tags, noise attributes, parameter uuids (they do not affect the operator) and
    analog blocks (see M_Analog.v). *)
From Coq Require Import String Reals List Arith Bool.
From Coquelicot Require Import Coquelicot.
From Verif Require Import S_Ops.
Import ListNotations.
Open Scope R_scope.
Open Scope C_scope.

(** The functions of sympy the library's own constructors apply to parameters (constructors/rydberg_hea.py:88-89).
    Simplification: applied to a complex value they take its real part. *)
Inductive fn : Type := FCos | FSin.
Definition fn_value (f : fn) (x : R) : R := match f with FCos => cos x | FSin => sin x end.

(** Parameter expressions (sympy): qadence/parameters.py.  Constants are arbitrary complex numbers. *)
Inductive expr : Type :=
| ECst (c : C)
| EVar (s : string)
| ENeg (e : expr)
| EAdd (a b : expr)
| EMul (a b : expr)
| EPow (e : expr) (k : nat)
| EConj (e : expr)
| EFun (f : fn) (e : expr).

(** Values of the named parameters (sympy Symbols used by the library hold real values,
    parameters.py:61,128). *)
Definition env := string -> R.

(** parameters.py:233-283 [evaluate], as the mathematical value of the expression. *)
Fixpoint ev (rho : env) (e : expr) : C :=
  match e with
  | ECst c => c
  | EVar s => RtoC (rho s)
  | ENeg a => - ev rho a
  | EAdd a b => ev rho a + ev rho b
  | EMul a b => ev rho a * ev rho b
  | EPow a k => cpow (ev rho a) k
  | EConj a => Cconj (ev rho a)
  | EFun f a => RtoC (fn_value f (fst (ev rho a)))
  end.

(** A rotation angle is the real value of its expression.  (Simplification: gate angles are taken to be
    real; a complex angle is read as its real part.) *)
Definition ang (rho : env) (e : expr) : R := fst (ev rho e).

(** Parameter-free one-qubit operations, operations/primitive.py: X 30, Y 51, Z 72, I 93, S 180,
    SDagger 205, H 230, Zero 252, T 292, TDagger 321; N 154 with its [state] argument ("1" = true). *)
Inductive prim : Type :=
| PX | PY | PZ | PI_ | PH | PS | PSdg | PT | PTdg | PZero | PN (state : bool).

(** One-parameter one-qubit operations, operations/parametric.py: PHASE 31, RX 60, RY 93, RZ 125. *)
Inductive rot : Type := RX_ | RY_ | RZ_ | RPhase.

(** Blocks.
    - [BPrim]: operations/primitive.py ([Zero] always has support (0,), primitive.py:255-257)
    - [BProj]: operations/primitive.py:131-151 Projector(ket, bra, qubit_support)
    - [BRot], [BU]: operations/parametric.py
    - [BSwap]: operations/primitive.py:351; [BCSwap]: operations/control_ops.py:284
    - [BCtrl]: blocks/primitive.py:365 ControlBlock (CNOT, CZ, MCZ, Toffoli)
    - [BPCtrl]: blocks/primitive.py:430 ParametricControlBlock (CRX.., MCRX.., CPHASE, MCPHASE)
    - [BScale]: blocks/primitive.py:224 ScaleBlock
    - [BChain], [BKron], [BAdd]: blocks/composite.py:183, 213, 251
    - [BMat]: blocks/matrix.py:18 MatrixBlock, matrix entries indexed by integers
    - [BEvo]: operations/ham_evo.py:34 HamEvo with a block generator and a time expression *)
Inductive block : Type :=
| BPrim (p : prim) (q : nat)
| BProj (kt br : list bool) (qs : list nat)
| BRot (r : rot) (q : nat) (e : expr)
| BU (q : nat) (phi theta omega : expr)
| BSwap (a b : nat)
| BCSwap (c a b : nat)
| BCtrl (cs : list nat) (b : block)
| BPCtrl (cs : list nat) (b : block)
| BScale (b : block) (e : expr)
| BChain (bs : list block)
| BKron (bs : list block)
| BAdd (bs : list block)
| BMat (m : nat -> nat -> C) (qs : list nat)
| BEvo (gen : block) (t : expr).
