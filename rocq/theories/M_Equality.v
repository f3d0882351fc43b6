(** Comparing blocks, registers and circuits with [==], and asking whether a block or a parameter is [in] a block or a circuit
    (the methods [__eq__] and [__contains__] of blocks/primitive.py, blocks/composite.py, register.py, circuit.py and parameters.py).

    Python calls the left operand's [__eq__] unless the class of the right operand is a proper subclass of the left one's; every
    [__eq__] here answers False (and not NotImplemented) unless the argument is an instance of its own class.  Together: operands
    of different classes are unequal, also when one class extends the other.

    Simplifications: tags are absent ([tag == tag] is one more conjunct); parameters with the same name are the same parameter
    (the value and [trainable] are two more conjuncts of parameters.py:138-142); a controlled gate and its multi-controlled form
    with one control (CZ and MCZ, CNOT and a Toffoli with one control, CRX and MCRX) are one class, and so are HamEvo and
    AnalogSWAP; PutBlock and the analog blocks (whose [__eq__] always raises, blocks/analog.py:33-34) are absent. *)
From Coq Require Import String Reals List Arith Bool.
From Coquelicot Require Import Coquelicot.
From Coq Require Import List.
From Verif Require Import M_QubitSupport M_Block M_BlockOps M_Convert M_Register.
Import ListNotations.

(** The outcome of a comparison: an answer or an exception. *)
Inductive cmp : Type := Yes | No | Raise.
Definition of_bool (b : bool) : cmp := if b then Yes else No.
(** [a and b] *)
Definition cand (a b : cmp) : cmp := match a with Yes => b | No => No | Raise => Raise end.
(** [all([...])]: the list is built first, so that any exception escapes. *)
Fixpoint call (l : list cmp) : cmp :=
  match l with
  | [] => Yes
  | c :: r => match c, call r with Raise, _ | _, Raise => Raise | Yes, d => d | No, _ => No end
  end.

(** [isinstance(b, CompositeBlock)] *)
Definition composite (b : block) : bool := match b with BChain _ | BKron _ | BAdd _ => true | _ => false end.
(** [isinstance(b, ParametricBlock)]: blocks/primitive.py:120 and its subclasses (ScaleBlock 224, HamEvo, ParametricControlBlock 430). *)
Definition parametric_class (b : block) : bool :=
  match b with BRot _ _ _ | BU _ _ _ _ | BPCtrl _ _ | BScale _ _ | BEvo _ _ => true | _ => false end.
(** [self.blocks] of a composite block. *)
Definition parts (b : block) : list block := match b with BChain bs | BKron bs | BAdd bs => bs | _ => [] end.

Fixpoint bsize (b : block) : nat :=
  match b with
  | BCtrl _ b | BPCtrl _ b | BScale b _ | BEvo b _ => S (bsize b)
  | BChain bs | BKron bs | BAdd bs => S (list_sum (map bsize bs))
  | _ => 1
  end.

Definition prim_class (p : prim) : nat :=
  match p with PX => 0 | PY => 1 | PZ => 2 | PI_ => 3 | PH => 4 | PS => 5 | PSdg => 6 | PT => 7 | PTdg => 8 | PZero => 9 | PN _ => 10 end.
Definition rot_class (r : rot) : nat := match r with RX_ => 0 | RY_ => 1 | RZ_ => 2 | RPhase => 3 end.

(** A register: the nodes with their positions (M_Register.v), the edges, the device specifications. *)
Record qreg (D : Type) : Type := { nodes : register; edges : list (nat * nat); device : D }.
Arguments nodes {D} _.
Arguments edges {D} _.
Arguments device {D} _.

Section Equality.
  Variable set_iter : list nat -> list nat.
  (** sympy: [a == b] for expressions neither of which is a Parameter. *)
  Variable sym_eq : expr -> expr -> bool.
  (** sympy: what [a.equals(b)] goes on to find out when [a == b] is False. *)
  Variable deeper : expr -> expr -> bool.

  (** parameters.py:138-150 [Parameter.__eq__] on the left: another parameter is compared, any other expression is searched for
      this parameter.  An expression on the left of a parameter is of another class (sympy's [Expr.__eq__]). *)
  Definition expr_eq (a b : expr) : bool :=
    match a, b with
    | EVar s, EVar s' => String.eqb s s'
    | EVar s, _ => existsb (String.eqb s) (vars b)
    | _, EVar _ => false
    | _, _ => sym_eq a b
    end.
  (** sympy's [Expr.equals], which starts with [if self == other: return True]. *)
  Definition expr_equals (a b : expr) : bool := expr_eq a b || deeper a b.

  Definition same_support (a b : block) : bool := support_eqb (bsup set_iter a) (bsup set_iter b).

  (** One comparison, given the comparisons [beq] and containments [has] of smaller blocks.
      - fixed gates, projectors, matrices, SWAP: primitive.py:86-91
      - rotations and evolutions: primitive.py:186-193; U has the parameters phi, theta and omega but no [parameter]
        (operations/parametric.py:171), so the attribute access raises
      - ScaleBlock 294-302; ControlBlock 402-407 (CSWAP: operations/control_ops.py:284-296); ParametricControlBlock 463-468
      - ChainBlock: composite.py:80-89; KronBlock 241-248; AddBlock 266-273 *)
  Definition beq_body (beq has : block -> block -> cmp) (a b : block) : cmp :=
    match a, b with
    | BPrim p _, BPrim p' _ => of_bool (Nat.eqb (prim_class p) (prim_class p') && same_support a b)
    | BProj _ _ _, BProj _ _ _ => of_bool (same_support a b)
    | BMat _ _, BMat _ _ => of_bool (same_support a b)
    | BSwap _ _, BSwap _ _ => of_bool (same_support a b)
    | BCSwap _ x y, BCSwap _ x' y' => of_bool (same_support a b && same_support (BSwap x y) (BSwap x' y'))
    | BRot r _ e, BRot r' _ e' => of_bool (Nat.eqb (rot_class r) (rot_class r') && (same_support a b && expr_equals e e'))
    | BU _ _ _ _, BU _ _ _ _ => if same_support a b then Raise else No
    | BEvo _ t, BEvo _ t' => of_bool (same_support a b && expr_equals t t')
    | BCtrl _ x, BCtrl _ x' => cand (of_bool (same_support a b)) (beq x x')
    | BPCtrl _ x, BPCtrl _ x' => cand (of_bool (same_support a b)) (beq x x')
    | BScale x e, BScale x' e' => cand (beq x x') (of_bool (expr_eq e e'))
    | BChain xs, BChain ys =>
        if Nat.eqb (length xs) (length ys) then call (map (fun p => beq (fst p) (snd p)) (combine xs ys)) else No
    | BKron xs, BKron ys => if Nat.eqb (length xs) (length ys) then call (map (fun x => has b x) xs) else No
    | BAdd xs, BAdd ys => if Nat.eqb (length xs) (length ys) then call (map (fun x => has b x) xs) else No
    | _, _ => No
    end.
  (** composite.py:91-98 [CompositeBlock.__contains__] with a block: every part is searched, if composite, and compared. *)
  Fixpoint search (beq has : block -> block -> cmp) (x : block) (l : list block) : cmp :=
    match l with
    | [] => No
    | c :: r =>
        match (if composite c then has c x else No) with
        | Yes => Yes
        | Raise => Raise
        | No => match beq c x with Yes => Yes | Raise => Raise | No => search beq has x r end
        end
    end.
  (** The recursion, bounded by the sizes of the two blocks ([C70_unfold] shows that the bound is never reached). *)
  Fixpoint beqf (n : nat) (a b : block) : cmp :=
    match n with O => Raise | S k => beq_body (beqf k) (hasf k) a b end
  with hasf (n : nat) (o x : block) : cmp :=
    match n with O => Raise | S k => search (beqf k) (hasf k) x (parts o) end.
  (** [a == b] *)
  Definition beq (a b : block) : cmp := beqf (bsize a + bsize b) a b.
  (** [x in o] for a composite [o]. *)
  Definition has (o x : block) : cmp := hasf (bsize o + bsize x) o x.
  (** [a != b]: Python inverts [__eq__]. *)
  Definition bne (a b : block) : cmp := match beq a b with Yes => No | No => Yes | Raise => Raise end.

  (** [s in b] for a parameter: composite.py:99-103, primitive.py:195-201 (the expressions of the block's parameters; those of a
      HamEvo are its time and the expressions of its generator, ham_evo.py:110,150) and 312-315 (ScaleBlock). *)
  Fixpoint has_param (s : string) (b : block) : bool :=
    match b with
    | BRot _ _ e => existsb (String.eqb s) (vars e)
    | BU _ x y z => existsb (String.eqb s) (vars x) || existsb (String.eqb s) (vars y) || existsb (String.eqb s) (vars z)
    | BPCtrl _ x => has_param s x
    | BEvo g t => existsb (String.eqb s) (vars t) || existsb (String.eqb s) (bparams g)
    | BScale x _ => if parametric_class x || composite x then has_param s x else false
    | BChain bs | BKron bs | BAdd bs => existsb (fun c => if parametric_class c || composite c then has_param s c else false) bs
    | _ => false
    end.

  (** register.py:352-359: the coordinates as dictionaries, the graphs up to isomorphism (networkx), the number of nodes. *)
  Variable isomorphic : list nat * list (nat * nat) -> list nat * list (nat * nat) -> bool.
  Definition point_eqb (p q : point) : bool :=
    (if Req_EM_T (fst p) (fst q) then true else false) && (if Req_EM_T (snd p) (snd q) then true else false).
  Definition same_coords (a b : register) : bool :=
    forallb (fun e => match coord b (fst e) with Some p => point_eqb (snd e) p | None => false end) a
    && forallb (fun e => match coord a (fst e) with Some p => point_eqb (snd e) p | None => false end) b.
  Definition register_eq {D} (a b : qreg D) : bool :=
    same_coords (nodes a) (nodes b) && isomorphic (support (nodes a), edges a) (support (nodes b), edges b)
    && Nat.eqb (length (nodes a)) (length (nodes b)).

  (** circuit.py:54-61 [QuantumCircuit.__eq__]. *)
  Definition circuit_eq {D} (a b : block * qreg D) : cmp :=
    match bne (fst a) (fst b) with
    | Yes => No
    | Raise => Raise
    | No => if negb (register_eq (snd a) (snd b)) then No else Yes
    end.
  (** circuit.py:72-81 [QuantumCircuit.__contains__]: a block, then a parameter ([unique_parameters], 83-96). *)
  Definition circuit_has (b x : block) : cmp := if composite b then has b x else beq x b.
  Definition circuit_has_param (s : string) (b : block) : bool := existsb (String.eqb s) (bparams b).
End Equality.
