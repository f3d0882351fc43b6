(** Model of qadence/transpile/block.py:132-182 ([validate]) and of the blocks it produces, in which nested
    blocks use local qubit numbers (composite.py:152-180 [PutBlock]).  Tags are not modelled. *)
From Coq Require Import String Reals List Arith Bool.
From Coquelicot Require Import Coquelicot.
From Coq Require Import List.
From Verif Require Import S_Ops M_QubitSupport M_Block M_BlockOps M_Tensor M_Transpile M_Fill.
Import ListNotations.

(** Result blocks.  [VPut v sup]: PutBlock(v, sup).  [VCtrl cs tgt v]: a control block whose stored
    [_qubit_support] is [cs ++ tgt] and whose inner block has been replaced by [v].  [VLeaf b]: a deep copy. *)
Inductive vblock : Type :=
| VLeaf (b : block)
| VPut (v : vblock) (support : list nat)
| VComp (k : kind) (vs : list vblock)
| VCtrl (cs tgt : list nat) (v : vblock).

Section WithSetOrder.
  Variable set_iter : list nat -> list nat.

  (** PutBlock.qubit_support (composite.py:162-164); [validate] passes only PutBlocks to the constructors. *)
  Definition vsup (v : vblock) : list nat := match v with VPut _ s => s | _ => [] end.

  (** composite.py:232-243, the check in KronBlock.__init__: distinct qubits. *)
  Fixpoint vkron_check (acc : list nat) (vs : list vblock) : bool :=
    match vs with
    | [] => true
    | v :: r => negb (existsb (fun q => existsb (Nat.eqb q) acc) (vsup v)) && vkron_check (acc ++ vsup v) r
    end.

  (** block.py:167-173: construct the block of the same type; for a kron with overlapping supports, fall back to
      a chain; a kron of nothing raises. *)
  Definition vconstruct (k : kind) (vs : list vblock) : option vblock :=
    match k with
    | KKron => match vs with [] => None | _ => if vkron_check [] vs then Some (VComp KKron vs) else Some (VComp KChain vs) end
    | _ => Some (VComp k vs)
    end.

  (** The dictionary {i: i - min(b.qubit_support) for i in b.qubit_support} (block.py:155, 163). *)
  Definition local_map (qs : list nat) (lo : nat) (i : nat) : option nat :=
    if existsb (Nat.eqb i) qs then Some (i - lo)%nat else None.

  (** block.py:132-182.  The recursion is on reassigned blocks, hence the [fuel] (nesting depth). *)
  Fixpoint validate (fuel : nat) (b : block) : option vblock :=
    match fuel with
    | O => None
    | S f =>
        let inner x :=
          obind (minmax (sup set_iter x)) (fun mm =>
          obind (reassign set_iter (local_map (sup set_iter x) (fst mm)) x) (fun nb =>
          omap (fun v => (v, mm)) (validate f nb))) in
        let comp k bs :=
          obind (osequence (map (fun x => omap (fun vm => VPut (fst vm) (rng (fst (snd vm)) (snd (snd vm)))) (inner x)) bs))
            (vconstruct k) in
        match b with
        | BCtrl cs b' => omap (fun vm => VCtrl cs (sup set_iter b') (fst vm)) (inner b')
        | BCSwap c x y => omap (fun vm => VCtrl [c] [x; y] (fst vm)) (inner (BSwap x y))
        | BChain bs => comp KChain bs
        | BKron bs => comp KKron bs
        | BAdd bs => comp KAdd bs
        | _ => Some (VLeaf b)
        end
    end.
End WithSetOrder.

(** Nesting depth of a block. *)
Fixpoint bdepth (b : block) : nat :=
  match b with
  | BChain bs | BKron bs | BAdd bs => S (fold_right (fun x k => Nat.max (bdepth x) k) 0%nat bs)
  | BCtrl _ b' | BPCtrl _ b' | BScale b' _ => S (bdepth b')
  | BCSwap _ _ _ => 2%nat
  | _ => 1%nat
  end.
