(** Model of the identity-initialised ansatz, qadence/constructors/iia.py.  A parameter is its name; the initial value given to
    it is recorded beside the block, in the order in which the parameters are created.  [None] stands for a raised exception.
    Tags are not modelled; the random numbers of iia.py:140 are the argument [alpha]. *)
From Coq Require Import String Reals List Arith Bool.
From Coquelicot Require Import Coquelicot.
From Coq Require Import List.
From Verif Require Import S_Ops M_QubitSupport M_Block M_BlockOps M_Tensor M_Transpile M_Names M_Hea.
Import ListNotations.
Open Scope string_scope.
Open Scope nat_scope.
Open Scope list_scope.

(** A parameter name with its initial value. *)
Definition entry := (string * R)%type.

(** iia.py:16-28 [_entangler]; a parametric entangler creates a parameter with value 0. *)
Definition iia_entangler (control target : nat) (param_str : string) (op : entop) : block * list entry :=
  (entangler control target param_str op, match op with E_CNOT | E_CZ => [] | _ => [(param_str, 0%R)] end).
(** iia.py:31-46 [_entangler_analog] *)
Definition iia_entangler_analog (param_str : string) (generator : block) : block * list entry := (BEvo generator (EVar param_str), [(param_str, 0%R)]).

(** iia.py:99-136: the entangling layer, digital or digital-analog with an accepted generator. *)
Inductive ent_choice : Type := Digital (op : entop) (periodic : bool) | Analog (generator : block).

Section WithSetOrder.
  Variable set_iter : list nat -> list nat.

  (** iia.py:83-93: one kron; [idx] is the position of the operation. *)
  Definition iia_gates (n layer : nat) (param_str : string) (values : nat -> R) (idx : nat) (gate : rot) : list (block * entry) :=
    map (fun q => let name := (param_str ++ "_" ++ dec layer ++ dec (q + n * idx))%string in (BRot gate q (EVar name), (name, values (q + n * idx)))) (seq 0 n).
  (** iia.py:80-96: the krons of one side; the list holds the pairs (idx(i), gate). *)
  Fixpoint iia_krons (n layer : nat) (param_str : string) (values : nat -> R) (ops : list (nat * rot)) : option (list block * list entry) :=
    match ops with
    | [] => Some ([], [])
    | (idx, gate) :: r =>
        let gs := iia_gates n layer param_str values idx gate in
        obind (mk_kron set_iter (map fst gs)) (fun kr =>
        obind (iia_krons n layer param_str values r) (fun rest => Some (kr :: fst rest, map snd gs ++ snd rest)))
    end.
  (** iia.py:72-76: the order and index of the operations on the two sides. *)
  Definition left_ops (ops : list rot) : list (nat * rot) := combine (seq 0 (length ops)) ops.
  Definition right_ops (ops : list rot) : list (nat * rot) := combine (map (fun x => length ops - x - 1) (seq 0 (length ops))) (rev ops).

  (** iia.py:153-209: the blocks of the left entangling chain. *)
  Definition left_entanglers (n layer : nat) (prefix : string) (ent : ent_choice) : list (block * list entry) :=
    match ent with
    | Digital op false => map (fun q => iia_entangler q (q + 1) (prefix ++ "_θ_ent_" ++ "_" ++ dec layer ++ dec q)%string op) (seq 0 (n - 1))
    | Digital op true => map (fun q => iia_entangler q ((q + 1) mod n) (prefix ++ "_θ_ent_" ++ "_" ++ dec layer ++ dec q)%string op) (seq 0 n)
    | Analog gen => [iia_entangler_analog (prefix ++ "_ent_t" ++ "_" ++ dec layer)%string gen]
    end.
  (** iia.py:211-219 *)
  Definition centre_gates (n layer : nat) (prefix : string) : list (block * entry) :=
    map (fun q => let name := (prefix ++ "_γ" ++ "_" ++ dec layer ++ dec q)%string in (BRot RX_ q (EVar name), (name, 0%R))) (seq 0 n).

  (** iia.py:139-240: one layer.  The right entanglers are the blocks of the left chain in reverse order. *)
  Definition iia_layer (n layer : nat) (prefix : string) (ent : ent_choice) (ops : list rot) (alpha : nat -> R) : option (block * list entry) :=
    obind (iia_krons n layer (prefix ++ "_α")%string alpha (left_ops ops)) (fun l =>
    let es := left_entanglers n layer prefix ent in
    obind (mk_kron set_iter (map fst (centre_gates n layer prefix))) (fun centre =>
    obind (iia_krons n layer (prefix ++ "_β")%string (fun i => (- alpha i)%R) (right_ops ops)) (fun r =>
    Some (BChain (fst l ++ [BChain (map fst es)] ++ [centre] ++ rev (map fst es) ++ fst r),
          snd l ++ flat_map snd es ++ map snd (centre_gates n layer prefix) ++ snd r)))).

  (** iia.py:99-242 *)
  Definition iia (n depth : nat) (prefix : string) (ent : ent_choice) (ops : list rot) (alpha : nat -> nat -> R) : option (block * list entry) :=
    obind (osequence (map (fun layer => iia_layer n layer prefix ent ops (alpha layer)) (seq 0 depth))) (fun ls =>
    Some (BChain (map fst ls), flat_map snd ls)).
End WithSetOrder.
