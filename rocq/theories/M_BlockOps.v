(** Model of the block methods: supports, constructors, dagger and Python operators
    (qadence/blocks/{abstract,primitive,composite,utils}.py, qadence/operations). *)
From Coq Require Import String Reals List Arith Bool.
From Coquelicot Require Import Coquelicot.
From Coq Require Import List.
From Verif Require Import S_Ops M_QubitSupport M_Block.
Import ListNotations.
Open Scope R_scope.
Open Scope C_scope.

(** * qubit_support *)
(** The entries of a local support ([SGlobal] does not occur: analog blocks are not in [block]). *)
Definition locals (s : support) : list nat := match s with SLocal l => l | SGlobal => [] end.

Section WithSetOrder.
  Variable set_iter : list nat -> list nat.

  (** composite.py:30-37: [sum([b.qubit_support for b in digiblocks], start=QubitSupport())] plus the
      same sum over the analog blocks, of which there are none here. *)
  Definition sum_supports (l : list support) : support :=
    qs_add set_iter (fold_left (qs_add set_iter) l (SLocal [])) (SLocal []).

  (** [block.qubit_support]: primitive.py:46-47 (stored support), 254-255 (ScaleBlock), 384 and 446
      (controls then targets), composite.py:30-37, operations/ham_evo.py:105 (generator's support). *)
  Fixpoint bsup (b : block) : support :=
    match b with
    | BPrim _ q | BRot _ q _ | BU q _ _ _ => SLocal [q]
    | BProj _ _ qs | BMat _ qs => SLocal qs
    | BSwap a b => SLocal [a; b]
    | BCSwap c a b => SLocal [c; a; b]
    | BCtrl cs b | BPCtrl cs b => SLocal (cs ++ locals (bsup b))
    | BScale b _ => bsup b
    | BChain bs | BKron bs | BAdd bs => sum_supports (map bsup bs)
    | BEvo g _ => bsup g
    end.

  (** composite.py:219-235 [KronBlock.__init__]: at least one block, none global, each disjoint from the
      union of the previous ones.  [None] stands for NotImplementedError or AssertionError. *)
  Fixpoint kron_check (acc : support) (l : list support) : bool :=
    match l with
    | [] => true
    | s :: r => negb (support_eqb SGlobal s) && qs_is_disjoint acc s && kron_check (qs_add set_iter acc s) r
    end.
  Definition mk_kron (bs : list block) : option block :=
    match bs with
    | [] => None
    | _ => if kron_check (SLocal []) (map bsup bs) then Some (BKron bs) else None
    end.

  Definition max_plus1 (l : list nat) : nat := match l with [] => 0%nat | _ => S (list_max l) end.

  (** [block.n_qubits]: primitive.py:109-110 (max+1), 278-279 (ScaleBlock), 460-461
      (ParametricControlBlock: the NUMBER of qubits), composite.py:43-48, matrix.py:104-105 (log2 of the
      matrix size, i.e. the number of qubits), operations/primitive.py:313-315, 342-344 (T, TDagger: 1),
      operations/parametric.py:189-191 (U: 1), operations/control_ops.py:333-335 (Toffoli: the number of
      qubits), operations/ham_evo.py:196-201.
      Simplification: a Toffoli with a single control is not distinguished from CNOT. *)
  Fixpoint nqubits (b : block) : nat :=
    match b with
    | BPrim PT _ | BPrim PTdg _ | BU _ _ _ _ => 1
    | BMat _ qs => length qs
    | BPCtrl cs b' => length (cs ++ locals (bsup b'))
    | BCtrl (c1 :: c2 :: cs) (BPrim PX q) => length (c1 :: c2 :: cs ++ [q])
    | BScale b' _ => nqubits b'
    | BEvo g _ => nqubits g
    | _ => max_plus1 (locals (bsup b))
    end%nat.

  (** abstract.py:195-200 [__matmul__]. *)
  Definition op_matmul (a b : block) : option block := mk_kron [a; b].

  (** abstract.py:202-214 [__imatmul__]: KronBlocks are unrolled. *)
  Definition unroll_kron (b : block) : list block := match b with BKron bs => bs | _ => [b] end.
  Definition op_imatmul (a b : block) : option block := mk_kron (unroll_kron a ++ unroll_kron b).
End WithSetOrder.

(** * dagger *)
(** parameters.py:190-199 and primitive.py:220: [-extract_original_param_entry(param)]. *)
Definition neg_param (e : expr) : expr := ENeg e.
(** parameters.py:23: sympy's [Dagger]. *)
Definition dagger_expression (e : expr) : expr := EConj e.

(** primitive.py:116 (self), 218-221 (parameters negated), 322-324 (ScaleBlock), 424-427 and 506-511
    (controls), composite.py:144-146 (reversed), operations/primitive.py:201,226,317,346 (S, SDagger, T,
    TDagger), ham_evo.py:203-205.  CSWAP's inner SWAP is its own dagger. *)
Fixpoint dagger (b : block) : block :=
  match b with
  | BPrim PS q => BPrim PSdg q
  | BPrim PSdg q => BPrim PS q
  | BPrim PT q => BPrim PTdg q
  | BPrim PTdg q => BPrim PT q
  | BPrim p q => BPrim p q
  | BProj k br qs => BProj k br qs
  | BRot r q e => BRot r q (neg_param e)
  | BU q a c d => BU q (neg_param a) (neg_param c) (neg_param d)
  | BSwap a c => BSwap a c
  | BCSwap c a d => BCSwap c a d
  | BCtrl cs b' => BCtrl cs (dagger b')
  | BPCtrl cs b' => BPCtrl cs (dagger b')
  | BScale b' e => BScale (dagger b') (dagger_expression e)
  | BChain bs => BChain (rev (map dagger bs))
  | BKron bs => BKron (rev (map dagger bs))
  | BAdd bs => BAdd (rev (map dagger bs))
  | BMat m qs => BMat m qs
  | BEvo g t => BEvo g (neg_param t)
  end.

(** * Python operators *)
Definition is_zero (b : block) : bool := match b with BPrim PZero _ => true | _ => false end.

(** abstract.py:82-88 with a block; operations/primitive.py:279-280 (Zero). *)
Definition op_mul (a b : block) : block := if is_zero a then a else BChain [a; b].

(** abstract.py:89-98 with a scalar or parameter ([__rmul__] is the same); Zero as above. *)
Definition op_scale (a : block) (s : expr) : block :=
  match a with
  | BPrim PZero q => a
  | BScale b p => BScale b (EMul p s)
  | _ => BScale a s
  end.

(** abstract.py:100-113 [__imul__] with a block (non-blocks raise TypeError); operations/primitive.py:108-113
    (I returns the other operand), 282-283 (Zero). *)
Definition unroll_chain (b : block) : list block := match b with BChain bs => bs | _ => [b] end.
Definition op_imul (a b : block) : block :=
  match a with
  | BPrim PZero _ => a
  | BPrim PI_ _ => b
  | _ => BChain (unroll_chain a ++ unroll_chain b)
  end.

(** abstract.py:121-125 [__truediv__] by a number ([1 / other] raises ZeroDivisionError at 0: [None]). *)
Definition op_truediv (a : block) (s : C) : option block :=
  if Ceq_dec s 0 then None else Some (op_scale a (ECst (/ s))).

(** abstract.py:127-132; Zero: operations/primitive.py:267-268. *)
Definition op_add (a b : block) : block := if is_zero a then b else BAdd [a; b].

(** abstract.py:143-155 [__iadd__]. *)
Definition unroll_add (b : block) : list block := match b with BAdd bs => bs | _ => [b] end.
Definition op_iadd (a b : block) : block :=
  if is_zero a then b else BAdd (unroll_add a ++ unroll_add b).

(** abstract.py:189-190 [__neg__]. *)
Definition op_neg (a : block) : block := op_scale a (ECst (- (1))).

(** abstract.py:157-168 [__sub__]; Zero: operations/primitive.py:273-274. *)
Definition op_sub (a b : block) : block :=
  if is_zero a then op_neg b
  else match b with
       | BScale b' s => BAdd [a; BScale b' (ENeg s)]
       | _ => BAdd [a; BScale b (ECst (- (1)))]
       end.

(** abstract.py:170-182 [__isub__]. *)
Definition op_isub (a b : block) : block :=
  if is_zero a then op_neg b
  else BAdd (unroll_add a ++ match b with BAdd bs => map op_neg bs | _ => [op_neg b] end).

(** abstract.py:184-187 [__pow__]; ScaleBlock: primitive.py:247-251; Zero: operations/primitive.py:288-289. *)
Definition op_pow (a : block) (k : nat) : block :=
  match a with
  | BPrim PZero _ => a
  | BScale b s => BScale (BChain (repeat b k)) (EPow s k)
  | _ => BChain (repeat a k)
  end.
