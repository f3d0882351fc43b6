(** Model of qadence/transpile/block.py:285-417 (fill_identities, chain_single_qubit_ops) and
    qadence/transpile/circuit.py.  Tags are not modelled. *)
From Coq Require Import String Reals List Arith Bool.
From Coquelicot Require Import Coquelicot.
From Coq Require Import List.
From Verif Require Import S_Ops M_QubitSupport M_Block M_BlockOps M_Tensor M_Transpile.
Import ListNotations.

(** Comparison of tuples of integers. *)
Fixpoint lex_leb (a b : list nat) : bool :=
  match a, b with
  | [], _ => true
  | _ :: _, [] => false
  | x :: a', y :: b' => if Nat.ltb x y then true else if Nat.eqb x y then lex_leb a' b' else false
  end.
Definition tuple_eqb (a b : list nat) : bool := if list_eq_dec Nat.eq_dec a b then true else false.

(** tuple(range(start, stop + 1)) *)
Definition rng (start stop : nat) : list nat := seq start (S stop - start).

Definition idb (i : nat) : block := BPrim PI_ i.

Section WithSetOrder.
  Variable set_iter : list nat -> list nat.
  Definition sup (b : block) : list nat := locals (bsup set_iter b).

  (** sorted(bs, key=lambda x: x.qubit_support) (stable). *)
  Fixpoint ins_sup (b : block) (l : list block) : list block :=
    match l with [] => [b] | c :: r => if lex_leb (sup b) (sup c) then b :: l else c :: ins_sup b r end.
  Fixpoint sort_sup (l : list block) : list block :=
    match l with [] => [] | b :: r => ins_sup b (sort_sup r) end.

  (** iteration over [set(a) - set(b)] *)
  Definition set_diff (a b : list nat) : list nat :=
    set_iter (filter (fun q => negb (existsb (Nat.eqb q) b)) a).

  (** [min(qs), max(qs)]; ValueError on an empty tuple. *)
  Definition minmax (qs : list nat) : option (nat * nat) :=
    match qs with [] => None | q :: r => Some (fold_left Nat.min r q, fold_left Nat.max r q) end.

  (** block.py:323-331 [length] *)
  Definition blen (b : block) : nat :=
    match b with BChain bs => length bs | BSwap _ _ => 2%nat | _ => 1%nat end.
  (** block.py:333-337 [append_ids]: for each qubit of range(min, max), [total - length] identities. *)
  Definition append_ids (total : nat) (b : block) : option block :=
    obind (minmax (sup b)) (fun mm =>
      Some (BChain (b :: flat_map (fun i => repeat (idb i) (total - blen b)) (seq (fst mm) (snd mm - fst mm))))).
  (** block.py:339-340 *)
  Definition id_chain (max_len i : nat) : block := BChain (repeat (idb i) max_len).

  (** block.py:285-367 [fill_identities(block, start, stop)].  ScaleBlock, ControlBlock, HamEvo, MatrixBlock
      and Projector are PrimitiveBlocks, so they are padded as a whole. *)
  Fixpoint fill (b : block) (start stop : nat) : option block :=
    match b with
    | BChain bs => omap BChain (osequence (map (fun x => fill x start stop) bs))
    | BAdd bs => omap BAdd (osequence (map (fun x => fill x start stop) bs))
    | BKron bs =>
        obind (osequence (map (fun x => obind (minmax (sup x)) (fun mm => fill x (fst mm) (snd mm))) bs)) (fun ys =>
        let max_len := list_max (map blen ys) in
        obind (osequence (map (append_ids max_len) ys)) (fun zs =>
        mk_kron set_iter (sort_sup (zs ++ map (id_chain max_len) (set_diff (rng start stop) (sup b))))))
    | BSwap _ _ =>
        if tuple_eqb (sup b) (rng start stop) then Some b
        else mk_kron set_iter (sort_sup (b :: map (fun i => BChain [idb i; idb i]) (set_diff (rng start stop) (sup b))))
    | _ =>
        if tuple_eqb (sup b) (rng start stop) then Some b
        else mk_kron set_iter (sort_sup (b :: map idb (set_diff (rng start stop) (sup b))))
    end.

  (** transpile/circuit.py:8-13 [fill_identities(circ)] on the block of a circuit with n qubits. *)
  Definition fill_circuit (n : nat) (b : block) : block :=
    match set_diff (seq 0 n) (sup b) with
    | [] => b
    | empty => BChain [b; BChain (map idb empty)]
    end.

  (** * chain_single_qubit_ops *)
  (** block.py:370-373 *)
  Definition is_prim1 (b : block) : bool :=
    match kind_of b with Some _ => false | None => Nat.eqb (length (sup b)) 1 end.
  Definition is_kron_of_primitives (b : block) : bool :=
    match b with BKron bs => forallb is_prim1 bs | _ => false end.
  (** [len(b)]: composite.py:68-69, primitive.py:63-64 *)
  Definition plen (b : block) : nat :=
    match b with BChain bs | BKron bs | BAdd bs => length bs | _ => 1%nat end.
  (** block.py:376-385 *)
  Definition is_chain_of_primitivekrons (b : block) : bool :=
    match b with
    | BChain bs =>
        Nat.ltb 1 (length bs) &&
        (Nat.eqb (length (nodup Nat.eq_dec (map plen bs))) 1 &&
         forallb (fun x => is_kron_of_primitives x && tuple_eqb (sup x) (sup b)) bs)
    | _ => false
    end.
  Definition children (b : block) : list block :=
    match b with BChain bs | BKron bs | BAdd bs => bs | _ => [b] end.

  (** [zip( *block )].  composite.py:59-64: iterating over a composite block returns the block itself and keeps
      the iterator in the object, so layers that are the same Python object share one iterator.  [ids] are the
      object identities of the layers; the state maps an identity to what its iterator still has to yield. *)
  Definition iters := nat -> list block.
  Definition set_it (st : iters) (i : nat) (l : list block) : iters := fun j => if Nat.eqb j i then l else st j.
  (** one round: [next] on every layer; [None] when one of them is exhausted *)
  Fixpoint zip_round (ids : list nat) (st : iters) : option (list block * iters) :=
    match ids with
    | [] => Some ([], st)
    | i :: r =>
        match st i with
        | [] => None
        | b :: l => obind (zip_round r (set_it st i l)) (fun p => Some (b :: fst p, snd p))
        end
    end.
  (** rounds until one fails; [fuel] is at least the number of rounds because each round consumes a block *)
  Fixpoint zip_loop (fuel : nat) (ids : list nat) (st : iters) : list (list block) :=
    match fuel with
    | O => []
    | S k => match zip_round ids st with None => [] | Some p => fst p :: zip_loop k ids (snd p) end
    end.
  (** [iter(layer)] on every layer first *)
  Definition zip_layers (ids : list nat) (layers : list block) : list (list block) :=
    let st := fold_left (fun st p => set_it st (fst p) (children (snd p))) (combine ids layers) (fun _ => []) in
    zip_loop (S (list_sum (map plen layers))) ids st.

  (** block.py:388-417 [chain_single_qubit_ops].  [ident] gives the object identities of the elements of a list
      of blocks.  An exception raised by [kron] is caught and the block returned unchanged. *)
  Variable ident : list block -> list nat.
  Fixpoint chain_ops (b : block) : option block :=
    if is_chain_of_primitivekrons b then
      match mk_kron set_iter (map BChain (zip_layers (ident (children b)) (children b))) with
      | Some y => Some y
      | None => Some b
      end
    else
      match b with
      | BChain bs => obind (osequence (map chain_ops bs)) (construct set_iter KChain)
      | BKron bs => obind (osequence (map chain_ops bs)) (construct set_iter KKron)
      | BAdd bs => obind (osequence (map chain_ops bs)) (construct set_iter KAdd)
      | _ => Some b
      end.
End WithSetOrder.
