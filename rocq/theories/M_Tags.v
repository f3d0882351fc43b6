(** Model of the tags of blocks: circuit.py:120-142 [get_blocks_by_tag], and what the transformations of blocks do with tags:
    invert.py:15-48 [reassign], blocks/composite.py:144-146 and the other [dagger] methods, flatten.py:19-119 [flatten],
    transpile/block.py:185-282 [scale_primitive_blocks_only], transpile/block.py:285-367 [fill_identities], draw/utils.py:157-175.

    A block with tags is a tree whose leaves are the blocks of M_Block.v without parts; [erase] forgets the tags.  [None]: an exception.
    Simplifications: PutBlocks and analog blocks are left out; the parts of a block are different objects, so that what is assigned to
    the tag of one does not show in another; after an exception nothing is said about the tags. *)
From Coq Require Import String Reals List Arith Bool.
From Coquelicot Require Import Coquelicot.
From Coq Require Import List.
From Verif Require Import S_Ops M_QubitSupport M_Block M_BlockOps M_Tensor M_Transpile M_Fill.
Import ListNotations.

(** abstract.py:49 [tag: str | None = None] *)
Definition ttag := option string.
(** [TLeaf]: a block without parts (HamEvo, whose generator no function here enters, is one as well); [TCtrl]: ControlBlock ([false]) and
    ParametricControlBlock ([true]); [TScale]: ScaleBlock; [TComp]: ChainBlock, KronBlock, AddBlock. *)
Inductive tblock : Type :=
| TLeaf (a : block) (t : ttag)
| TCtrl (par : bool) (cs : list nat) (b : tblock) (t : ttag)
| TScale (b : tblock) (e : expr) (t : ttag)
| TComp (k : kind) (bs : list tblock) (t : ttag).

(** the composite block of a kind *)
Definition comp (k : kind) (bs : list block) : block :=
  match k with KChain => BChain bs | KKron => BKron bs | KAdd => BAdd bs end.
(** the block without its tags *)
Fixpoint erase (b : tblock) : block :=
  match b with
  | TLeaf a _ => a
  | TCtrl par cs b' _ => if par then BPCtrl cs (erase b') else BCtrl cs (erase b')
  | TScale b' e _ => BScale (erase b') e
  | TComp k bs _ => comp k (map erase bs)
  end.
(** [block.tag] *)
Definition tag_of (b : tblock) : ttag :=
  match b with TLeaf _ t | TCtrl _ _ _ t | TScale _ _ t | TComp _ _ t => t end.
(** blocks/utils.py:139-141 [tag(block, t)]: [block.tag = t] *)
Definition retag (t : ttag) (b : tblock) : tblock :=
  match b with
  | TLeaf a _ => TLeaf a t
  | TCtrl par cs b' _ => TCtrl par cs b' t
  | TScale b' e _ => TScale b' e t
  | TComp k bs _ => TComp k bs t
  end.
(** [isinstance(block, CompositeBlock)] *)
Definition is_comp (b : tblock) : bool := match b with TComp _ _ _ => true | _ => false end.
(** [block.tag == tag] *)
Definition has_tag (s : string) (b : tblock) : bool :=
  match tag_of b with Some t => String.eqb t s | None => false end.

(** circuit.py:133-140 [_get_block] *)
Fixpoint get_blocks_by_tag (s : string) (b : tblock) : list tblock :=
  (if has_tag s b then [b] else []) ++
  match b with TComp _ bs _ => flat_map (get_blocks_by_tag s) bs | _ => [] end.

(** Which [dagger] returns the block itself (blocks/primitive.py:116-117) or a copy of it (424-427, for CSWAP), and so keeps the tag;
    the others make a new block: blocks/primitive.py:218-221, operations/primitive.py:201,226,317,347, ham_evo.py:203-205. *)
Definition own_dagger (a : block) : bool :=
  match a with
  | BPrim p _ => match p with PS | PSdg | PT | PTdg => false | _ => true end
  | BProj _ _ _ | BSwap _ _ | BCSwap _ _ _ | BMat _ _ => true
  | _ => false
  end.
(** blocks/primitive.py:322-324 (a new ScaleBlock), 424-427 and 506-511 (a copy), composite.py:144-146 (a new block) *)
Fixpoint tdagger (b : tblock) : tblock :=
  match b with
  | TLeaf a t => TLeaf (dagger a) (if own_dagger a then t else None)
  | TCtrl par cs b' t => TCtrl par cs (tdagger b') t
  | TScale b' e _ => TScale (tdagger b') (dagger_expression e) None
  | TComp k bs _ => TComp k (rev (map tdagger bs)) None
  end.

Section WithSetOrder.
  Variable set_iter : list nat -> list nat.

  (** blocks/utils.py:43-49 [_construct], then [blk.tag = t] *)
  Definition tconstruct (k : kind) (bs : list tblock) (t : ttag) : option tblock :=
    omap (fun _ => TComp k bs t) (construct set_iter k (map erase bs)).

  (** invert.py:15-48 [reassign] *)
  Fixpoint treassign (m : nat -> option nat) (b : tblock) : option tblock :=
    match b with
    | TLeaf a t => omap (fun a' => TLeaf a' t) (reassign set_iter m a)
    | TCtrl par cs b' t => obind (osequence (map m cs)) (fun cs' => omap (fun y => TCtrl par cs' y t) (treassign m b'))
    | TScale b' e t => omap (fun y => TScale y e t) (treassign m b')
    | TComp k bs t => obind (osequence (map (treassign m) bs)) (fun ys => tconstruct k ys t)
    end.

  (** [isinstance(block, T)] *)
  Definition tis_kind (T : kind) (b : tblock) : bool := match b with TComp k _ _ => kind_eqb k T | _ => false end.
  (** flatten.py:19-48 [_flat_blocks(block, T)] and flatten.py:94-119 [flatten(block, [T])]; [_construct] makes a block without a tag. *)
  Fixpoint tflatp (T : kind) (b : tblock) : option (list tblock) * option tblock :=
    match b with
    | TComp k bs _ =>
        let ys := if kind_eqb k T
                  then omap (@concat tblock) (osequence (map (fun x =>
                         if tis_kind T x then fst (tflatp T x) else omap (fun y => [y]) (snd (tflatp T x))) bs))
                  else osequence (map (fun x => snd (tflatp T x)) bs) in
        (ys, obind ys (fun l => tconstruct k l None))
    | TScale b' e t =>
        let r := omap (fun y => TScale y e t) (snd (tflatp T b')) in
        (omap (fun y => [y]) r, r)
    | _ => (Some [b], Some b)
    end.
  (** flatten.py:94-119 *)
  Fixpoint tflatten (types : list kind) (b : tblock) : option tblock :=
    match b with
    | TComp _ _ _ => fold_left (fun acc T => obind acc (fun x => snd (tflatp T x))) types (Some b)
    | TScale b' e t => omap (fun y => TScale y e t) (tflatten types b')
    | _ => Some b
    end.

  (** transpile/block.py:227-282 [scale_primitive_blocks_only], [scale_only_first_block].  [block * scale] of a block that is not a
      ScaleBlock is a new ScaleBlock; Zero times anything is Zero (operations/primitive.py:276-277). *)
  Fixpoint tscale (s : option expr) (b : tblock) : option tblock :=
    match b with
    | TScale b' s2 t => omap (retag t) (tscale (Some (match s with None => s2 | Some s1 => EMul s1 s2 end)) b')
    | TComp KAdd bs t => omap (fun l => TComp KAdd l t) (osequence (map (tscale s) bs))
    | TComp k bs t =>
        match bs with
        | [] => Some b
        | x :: r => obind (osequence (tscale s x :: map (tscale None) r)) (fun l => tconstruct k l t)
        end
    | TLeaf (BPrim PZero _) _ => Some b
    | _ => match s with None => Some b | Some e => Some (TScale b e None) end
    end.

  (** [block.qubit_support] *)
  Definition tsup (b : tblock) : list nat := sup set_iter (erase b).
  (** [sorted(bs, key=lambda x: x.qubit_support)] *)
  Fixpoint tins (b : tblock) (l : list tblock) : list tblock :=
    match l with [] => [b] | c :: r => if lex_leb (tsup b) (tsup c) then b :: l else c :: tins b r end.
  Fixpoint tsort (l : list tblock) : list tblock := match l with [] => [] | b :: r => tins b (tsort r) end.
  Definition tidb (i : nat) : tblock := TLeaf (idb i) None.
  (** transpile/block.py:323-337 *)
  Definition tlen (b : tblock) : nat :=
    match b with TComp KChain bs _ => length bs | TLeaf (BSwap _ _) _ => 2%nat | _ => 1%nat end.
  Definition tappend_ids (total : nat) (b : tblock) : option tblock :=
    obind (minmax (tsup b)) (fun mm =>
      Some (TComp KChain (b :: flat_map (fun i => repeat (tidb i) (total - tlen b)) (seq (fst mm) (snd mm - fst mm))) None)).
  Definition tid_chain (max_len i : nat) : tblock := TComp KChain (repeat (tidb i) max_len) None.

  (** transpile/block.py:285-367 [fill_identities].  The result is a pair: the block that is returned, and the block that was given as it
      is afterwards: lines 295-296 and 308-309 assign [None] to the tag of a primitive block that is padded. *)
  Fixpoint tfill (b : tblock) (start stop : nat) : option (tblock * tblock) :=
    match b with
    | TComp KKron bs t =>
        obind (osequence (map (fun x => obind (minmax (tsup x)) (fun mm => tfill x (fst mm) (snd mm))) bs)) (fun ps =>
        let ys := map fst ps in
        let max_len := list_max (map tlen ys) in
        obind (osequence (map (tappend_ids max_len) ys)) (fun zs =>
        omap (fun r => (r, TComp KKron (map snd ps) t))
             (tconstruct KKron (tsort (zs ++ map (tid_chain max_len) (set_diff set_iter (rng start stop) (tsup b)))) t)))
    | TComp k bs t =>
        omap (fun ps => (TComp k (map fst ps) t, TComp k (map snd ps) t)) (osequence (map (fun x => tfill x start stop) bs))
    | _ =>
        if tuple_eqb (tsup b) (rng start stop) then Some (b, b)
        else
          let u := retag None b in
          let pad i := match b with TLeaf (BSwap _ _) _ => TComp KChain [tidb i; tidb i] None | _ => tidb i end in
          omap (fun r => (r, u))
               (tconstruct KKron (tsort (u :: map pad (set_diff set_iter (rng start stop) (tsup b)))) (tag_of b))
    end.
  (** draw/utils.py:157-175: what is drawn, and the block that was given as it is afterwards.  For a block with a qubit. *)
  Definition drawn (b : tblock) : option (tblock * tblock) := tfill b 0 (nqubits set_iter (erase b) - 1).
End WithSetOrder.
