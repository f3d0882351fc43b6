(** Model of the search for blocks by their parameters: qadence/blocks/utils.py:216-264 (uuid_to_block, uuid_to_expression,
    expression_to_uuids), 403-427 (get_block_by_uuid, get_blocks_by_expression, has_duplicate_vparams).

    Blocks, expressions and parameter objects are those of M_Trainable.v.  Simplifications: expressions are compared by their form (sympy
    brings them into one when they are made); parameters are compared by identity (C74 is about constructing them); uuids are numbers.
    [None]: KeyError. *)
From Coq Require Import String List Arith Bool.
From Verif Require Import M_Trainable.
Import ListNotations.

(** Python dictionaries from uuids to blocks: assignment to a key, reading a key. *)
Definition bput (d : list (nat * tblock)) (k : nat) (v : tblock) : list (nat * tblock) :=
  if existsb (fun p => Nat.eqb (fst p) k) d then map (fun p => if Nat.eqb (fst p) k then (k, v) else p) d
  else d ++ [(k, v)].
Definition get {V} (d : list (nat * V)) (k : nat) : option V := option_map snd (find (fun p => Nat.eqb (fst p) k) d).
(** [block.parameters] with its [_uuid_dict] *)
Definition params_of (b : tblock) : pmap :=
  match b with TParam m | TEvo _ m | TAnalog m => m | TScale _ u e => [(u, e)] | _ => [] end.
(** [for uuid in block.parameters.uuids(): d[uuid] = block] *)
Definition put_all (b : tblock) (d : list (nat * tblock)) : list (nat * tblock) :=
  fold_left (fun d u => bput d u b) (map fst (params_of b)) d.
(** utils.py:216-248 [uuid_to_block(block, d)] *)
Fixpoint uuid_to_block (b : tblock) (d : list (nat * tblock)) : list (nat * tblock) :=
  match b with
  | TScale b' _ _ => uuid_to_block b' (put_all b d)
  | TAnalog _ => put_all b d
  | TComp bs => fold_left (fun d x => uuid_to_block x d) bs d
  | TEvo gen _ => put_all b (match gen with Some g => uuid_to_block g d | None => d end)
  | TParam _ => put_all b d
  | TPrim | TCtrl _ => d
  end.
Fixpoint sequence {A} (l : list (option A)) : option (list A) :=
  match l with
  | [] => Some []
  | x :: r => match x, sequence r with Some a, Some s => Some (a :: s) | _, _ => None end
  end.
(** utils.py:251-252 [uuid_to_expression(block)] *)
Definition uuid_to_expr (b : tblock) : option pmap :=
  sequence (map (fun kv => option_map (fun e => (fst kv, e)) (get (params_of (snd kv)) (fst kv))) (uuid_to_block b [])).
(** Equality of expressions. *)
Fixpoint peqb (a b : pexpr) {struct a} : bool :=
  match a, b with
  | PNum j, PNum k => Nat.eqb j k
  | PSym o, PSym p => Nat.eqb o p
  | PApp f l, PApp g m =>
      String.eqb f g &&
      (fix go (l m : list pexpr) {struct l} : bool :=
         match l, m with [], [] => true | x :: l', y :: m' => peqb x y && go l' m' | _, _ => false end) l m
  | _, _ => false
  end.
(** utils.py:261 [expr_to_uuid.setdefault(expr, []).append(uuid)] *)
Fixpoint append_at (d : list (pexpr * list nat)) (e : pexpr) (u : nat) : list (pexpr * list nat) :=
  match d with
  | [] => [(e, [u])]
  | (e', us) :: r => if peqb e' e then (e', us ++ [u]) :: r else (e', us) :: append_at r e u
  end.
(** utils.py:255-264 [expression_to_uuids(block)] *)
Definition expression_to_uuids (b : tblock) : option (list (pexpr * list nat)) :=
  option_map (fun m => fold_left (fun d ue => append_at d (snd ue) (fst ue)) m []) (uuid_to_expr b).
(** utils.py:403-404 *)
Definition get_block_by_uuid (b : tblock) (u : nat) : option tblock := get (uuid_to_block b []) u.
(** utils.py:407-412 *)
Definition get_blocks_by_expression (b : tblock) (e : pexpr) : option (list tblock) :=
  match expression_to_uuids b with
  | Some d => match find (fun p => peqb (fst p) e) d with
              | Some (_, us) => sequence (map (get (uuid_to_block b [])) us)
              | None => None
              end
  | None => None
  end.
(** utils.py:415-427 with 201-213: [free_symbols] is a set; an expression without symbols is a number. *)
Definition has_duplicate_vparams (h : heap) (b : tblock) : option bool :=
  option_map (fun d =>
    let symbols := flat_map (fun ue => nodup Nat.eq_dec (free_symbols (snd ue))) d in
    let trainables := filter (fun o => ptrain (h o)) symbols in
    negb (Nat.eqb (length (nodup Nat.eq_dec trainables)) (length trainables))) (uuid_to_expr b).
