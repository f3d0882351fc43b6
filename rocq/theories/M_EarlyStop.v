(** Model of EarlyStopping: qadence/ml_tools/callbacks/callback.py:669-745, and SaveBestCheckpoint 412-444. *)
From Coq Require Import List Bool QArith.
Import ListNotations.

(** IEEE values as far as comparisons see them. *)
Inductive fl := NegInf | Fin (q : Q) | PosInf | NaN.
(** Python's [a < b] on floats: false as soon as one side is NaN. *)
Definition flt (a b : fl) : bool :=
  match a, b with
  | NaN, _ | _, NaN => false
  | NegInf, NegInf => false
  | NegInf, _ => true
  | Fin _, NegInf => false
  | Fin x, Fin y => negb (Qle_bool y x)
  | Fin _, PosInf => true
  | PosInf, _ => false
  end.

(** The [mode] argument is any string; only "min" and "max" are treated specially. *)
Inductive mode := MMin | MMax | MOther.
Record es := { es_mode : mode; patience : nat; best_value : fl; counter : nat }.
(** callback.py:699-722 [__init__] *)
Definition es_init (m : mode) (p : nat) : es :=
  {| es_mode := m; patience := p; best_value := match m with MMin => PosInf | _ => NegInf end; counter := 0 |}.
(** callback.py:724-745 [run_callback]: the metric may be missing (ValueError, [None]); otherwise the new state and whether a stop is requested. *)
Definition es_run (s : es) (metric : option fl) : option (es * bool) :=
  match metric with
  | None => None
  | Some v =>
      let improved := match es_mode s with MMin => flt v (best_value s) | MMax => flt (best_value s) v | MOther => false end in
      let s' := if improved then {| es_mode := es_mode s; patience := patience s; best_value := v; counter := 0 |}
                else {| es_mode := es_mode s; patience := patience s; best_value := best_value s; counter := S (counter s) |} in
      Some (s', Nat.leb (patience s') (counter s'))
  end.
(** A history of evaluations: the states and requests. *)
Fixpoint es_history (s : es) (h : list fl) : es * list bool :=
  match h with
  | [] => (s, [])
  | v :: r => match es_run s (Some v) with
              | Some (s', b) => let '(s'', bs) := es_history s' r in (s'', b :: bs)
              | None => (s, []) end
  end.
