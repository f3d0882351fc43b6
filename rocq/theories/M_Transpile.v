(** Model of qadence/transpile/{flatten,block,invert,circuit,apply_fn,transpile}.py on digital blocks.

    Constructors can fail ([KronBlock.__init__]); [None] stands for the raised exception.  Tags are not
    modelled except where stated. *)
From Coq Require Import String Reals List Arith Bool.
From Coquelicot Require Import Coquelicot.
From Coq Require Import List.
From Verif Require Import S_Ops M_QubitSupport M_Block M_BlockOps M_Tensor.
Import ListNotations.
Open Scope R_scope.
Open Scope C_scope.

Inductive kind := KChain | KKron | KAdd.
Definition kind_eqb (a b : kind) : bool :=
  match a, b with KChain, KChain | KKron, KKron | KAdd, KAdd => true | _, _ => false end.
(** [type(block)] for composite blocks *)
Definition kind_of (b : block) : option kind :=
  match b with BChain _ => Some KChain | BKron _ => Some KKron | BAdd _ => Some KAdd | _ => None end.
(** [isinstance(block, T)] *)
Definition is_kind (T : kind) (b : block) : bool :=
  match kind_of b with Some k => kind_eqb k T | None => false end.

Definition omap {A B} (f : A -> B) (x : option A) : option B := obind x (fun a => Some (f a)).
Fixpoint osequence {A} (l : list (option A)) : option (list A) :=
  match l with
  | [] => Some []
  | x :: r => obind x (fun a => obind (osequence r) (fun l' => Some (a :: l')))
  end.

Section WithSetOrder.
  Variable set_iter : list nat -> list nat.

  (** blocks/utils.py:43-49 [_construct] and the constructors composite.py:183-262. *)
  Definition construct (k : kind) (bs : list block) : option block :=
    match k with KChain => Some (BChain bs) | KAdd => Some (BAdd bs) | KKron => mk_kron set_iter bs end.

  (** flatten.py:19-48 [_flat_blocks(block, T)] (first component) together with
      flatten.py:94-119 [flatten(block, [T])] (second component), which call each other. *)
  Fixpoint flatp (T : kind) (b : block) : option (list block) * option block :=
    let go k bs :=
      let ys := if kind_eqb k T
                then omap (@concat block) (osequence (map (fun x =>
                       if is_kind T x then fst (flatp T x) else omap (fun y => [y]) (snd (flatp T x))) bs))
                else osequence (map (fun x => snd (flatp T x)) bs) in
      (ys, obind ys (construct k)) in
    match b with
    | BChain bs => go KChain bs
    | BKron bs => go KKron bs
    | BAdd bs => go KAdd bs
    | BScale b' e =>
        let r := omap (fun y => BScale y e) (snd (flatp T b')) in
        (omap (fun y => [y]) r, r)
    | _ => (Some [b], Some b)
    end.

  (** flatten.py:94-119 [flatten(block, types)]: [reduce(fn, types, block)] for composite blocks; a ScaleBlock
      recurses into its block. *)
  Fixpoint flatten (types : list kind) (b : block) : option block :=
    match b with
    | BChain _ | BKron _ | BAdd _ =>
        fold_left (fun acc T => obind acc (fun x => snd (flatp T x))) types (Some b)
    | BScale b' e => omap (fun y => BScale y e) (flatten types b')
    | _ => Some b
    end.

  (** block.py:185-282 [scale_primitive_blocks_only] and [scale_only_first_block]. *)
  Fixpoint scale_prims (s : option expr) (b : block) : option block :=
    let first k bs :=
      match bs with
      | [] => Some b
      | x :: r => obind (osequence (scale_prims s x :: map (scale_prims None) r)) (construct k)
      end in
    match b with
    | BScale b' s2 => scale_prims (Some (match s with None => s2 | Some s1 => EMul s1 s2 end)) b'
    | BChain bs => first KChain bs
    | BKron bs => first KKron bs
    | BAdd bs => omap BAdd (osequence (map (scale_prims s) bs))
    | _ => match s with None => Some b | Some e => Some (op_scale b e) end
    end.

  (** invert.py:15-48 [reassign]; the dictionary is a partial function (a missing key raises KeyError).
      A HamEvo only gets a new stored support, its generator is left as it is: since its operator is that of
      the generator, the model returns it unchanged. *)
  Fixpoint reassign (m : nat -> option nat) (b : block) : option block :=
    match b with
    | BPrim p q => omap (BPrim p) (m q)
    | BProj kt br qs => omap (BProj kt br) (osequence (map m qs))
    | BRot r q e => omap (fun q' => BRot r q' e) (m q)
    | BU q x y z => omap (fun q' => BU q' x y z) (m q)
    | BSwap x y => obind (m x) (fun x' => omap (BSwap x') (m y))
    | BCSwap c x y => obind (m c) (fun c' => obind (m x) (fun x' => omap (BCSwap c' x') (m y)))
    | BCtrl cs b' => obind (osequence (map m cs)) (fun cs' => omap (BCtrl cs') (reassign m b'))
    | BPCtrl cs b' => obind (osequence (map m cs)) (fun cs' => omap (BPCtrl cs') (reassign m b'))
    | BScale b' e => omap (fun y => BScale y e) (reassign m b')
    | BChain bs => obind (osequence (map (reassign m) bs)) (construct KChain)
    | BKron bs => obind (osequence (map (reassign m) bs)) (construct KKron)
    | BAdd bs => obind (osequence (map (reassign m) bs)) (construct KAdd)
    | BMat mt qs => omap (BMat mt) (osequence (map m qs))
    | BEvo g t => if forallb (fun q => match m q with Some _ => true | None => false end) (locals (bsup set_iter g))
                  then Some (BEvo g t) else None
    end.

  (** invert.py:92-94: the dictionary {i: j for (i, j) in zip(bits, reversed(bits))}. *)
  Definition invert_map (n : nat) (q : nat) : option nat := if Nat.ltb q n then Some (n - 1 - q)%nat else None.
  (** invert.py:86-95 [invert_endianness(block, n_qubits)]. *)
  Definition invert_block (n : nat) (b : block) : option block := reassign (invert_map n) b.
End WithSetOrder.

(** f"{num:0{n}b}": at least n digits, most significant first.  For num < 2^n exactly n digits. *)
Fixpoint nat_to_bits (n k : nat) : list bool :=
  match n with
  | O => []
  | S m => Nat.testbit k m :: nat_to_bits m k
  end.

(** invert.py:98-112 [invert_endianness(wf)] for one row of the batch: wf[permute_ind]. *)
Definition invert_wf (n : nat) (wf : list C) : list C :=
  map (fun k => nth (bits_to_nat (rev (nat_to_bits n k))) wf (RtoC 0)) (seq 0 (2 ^ n)).

(** invert.py:120-127 [invert_endianness(counter)]: format(int(bstring[::-1], 2), "0{len}b").  A counter is the
    list of its items. *)
Definition invert_counter (c : list (list bool * nat)) : list (list bool * nat) :=
  map (fun kv => (nat_to_bits (length (fst kv)) (bits_to_nat (rev (fst kv))), snd kv)) c.
