(** Model of qadence/transpile/block.py:44-129 (set_trainable, set_as_variational, set_as_fixed) and of
    qadence/blocks/utils.py:201-252 (parameters, uuid_to_block, uuid_to_expression).

    Parameter objects are mutable: they live in a heap and are referred to by their identity.  Blocks are modelled
    as far as their parameters are concerned. *)
From Coq Require Import String List Arith Bool.
Import ListNotations.

(** parameters.py:47-64 [Parameter]: name, trainable flag, initial value.  The value is an opaque datum. *)
Record pobj := mkP { pname : string; ptrain : bool; pvalue : nat }.
Definition heap := nat -> pobj.

(** sympy expressions over parameter objects. *)
Inductive pexpr : Type :=
| PNum (k : nat)
| PSym (o : nat)
| PApp (f : string) (args : list pexpr).

(** [expr.free_symbols] (as a list; repetitions are irrelevant because the only use is an idempotent update) *)
Fixpoint free_symbols (e : pexpr) : list nat :=
  match e with PNum _ => [] | PSym o => [o] | PApp _ l => flat_map free_symbols l end.

(** A [ParamMap] (parameters.py:293-315): uuid -> expression. *)
Definition pmap := list (nat * pexpr).

(** Blocks: [TPrim] a primitive block without parameters, [TCtrl] a (non-parametric) ControlBlock around a block,
    [TParam] a ParametricBlock (rotations, U, parametric controls), [TEvo] a HamEvo with its generator if that is a
    block, [TScale], [TComp] composites (also analog ones), [TAnalog] the special analog blocks. *)
Inductive tblock : Type :=
| TPrim
| TCtrl (b : tblock)
| TParam (m : pmap)
| TEvo (gen : option tblock) (m : pmap)
| TScale (b : tblock) (uuid : nat) (e : pexpr)
| TComp (bs : list tblock)
| TAnalog (m : pmap).

(** Python dictionaries: assignment to a key. *)
Definition dset (d : pmap) (k : nat) (v : pexpr) : pmap :=
  if existsb (fun p => Nat.eqb (fst p) k) d then map (fun p => if Nat.eqb (fst p) k then (k, v) else p) d
  else d ++ [(k, v)].
Definition dset_all (d m : pmap) : pmap := fold_left (fun d p => dset d (fst p) (snd p)) m d.

(** utils.py:216-252 [uuid_to_expression(block)], i.e. [uuid_to_block] followed by looking up each uuid in the
    ParamMap of its block. *)
Fixpoint uuid_to_expression (b : tblock) (d : pmap) : pmap :=
  match b with
  | TScale b' u e => uuid_to_expression b' (dset d u e)
  | TAnalog m => dset_all d m
  | TComp bs => fold_left (fun d x => uuid_to_expression x d) bs d
  | TEvo gen m => dset_all (match gen with Some g => uuid_to_expression g d | None => d end) m
  | TParam m => dset_all d m
  | TPrim | TCtrl _ => d
  end.

(** utils.py:201-213 [parameters(block)]: [inl] a symbol, [inr] an expression without symbols. *)
Definition parameters (b : tblock) : list (nat + pexpr) :=
  flat_map (fun ue => match free_symbols (snd ue) with [] => [inr (snd ue)] | l => map inl l end)
    (uuid_to_expression b []).

Definition set_flag (h : heap) (o : nat) (v : bool) : heap :=
  fun k => if Nat.eqb k o then mkP (pname (h o)) v (pvalue (h o)) else h k.

(** block.py:73-77: the loop body for one block *)
Definition set_block (restricted_names : list string) (value : bool) (h : heap) (b : tblock) : heap :=
  let params := flat_map (fun p => match p with inl o => [o] | inr _ => [] end) (parameters b) in
  let params := if match restricted_names with [] => false | _ => true end
                then filter (fun o => existsb (String.eqb (pname (h o))) restricted_names) params else params in
  fold_left (fun h o => set_flag h o value) params h.

(** block.py:44-81 [set_trainable(blocks, restricted_names, value, inplace)]: [None] stands for
    NotImplementedError (inplace=False) or IndexError (no block); blocks are returned as they are. *)
Definition set_trainable (blocks : list tblock) (restricted_names : list string) (value inplace : bool) (h : heap)
  : option (heap * list tblock) :=
  if inplace then
    match blocks with
    | [] => None
    | _ => Some (fold_left (set_block restricted_names value) blocks h, blocks)
    end
  else None.
(** block.py:84-105 *)
Definition set_as_variational blocks names inplace h := set_trainable blocks names true inplace h.
(** block.py:108-129 *)
Definition set_as_fixed blocks names inplace h := set_trainable blocks names false inplace h.
