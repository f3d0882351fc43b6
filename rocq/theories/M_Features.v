(** Model of the assignment of qubits to features: qadence/ml_tools/constructors.py:47-86 and qadence/constructors/utils.py:71-96. *)
From Coq Require Import List Arith.
Import ListNotations.

(** [StratOther] is any other value of the strategy argument. *)
Inductive strategy := Series | Parallel | StratOther.

(** numpy.array_split(arr, k): sizes [extras * [each + 1] + (k - extras) * [each]] with (each, extras) = divmod(len(arr), k); the cut points are their partial sums. *)
Definition section_sizes (n k : nat) : list nat := repeat (S (n / k)) (n mod k) ++ repeat (n / k) (k - n mod k).
Fixpoint cuts (acc : nat) (sizes : list nat) : list (nat * nat) :=
  match sizes with [] => [] | s :: r => (acc, acc + s) :: cuts (acc + s) r end.
Definition slice {A} (l : list A) (ab : nat * nat) : list A := firstn (snd ab - fst ab) (skipn (fst ab) l).
Definition array_split {A} (l : list A) (k : nat) : option (list (list A)) :=
  if Nat.eqb k 0 then None else Some (map (slice l) (cuts 0 (section_sizes (length l) k))).

(** ml_tools/constructors.py:47-86 [_create_support_arrays]; [None] is a ValueError *)
Definition create_support_arrays (num_qubits num_features : nat) (s : strategy) : option (list (list nat)) :=
  match s with
  | Series => Some (map (fun _ => seq 0 num_qubits) (seq 0 num_features))
  | Parallel => if Nat.leb num_features num_qubits then array_split (seq 0 num_qubits) num_features else None
  | StratOther => None
  end.

(** constructors/utils.py:71-96 [get_fm_qubits]; int(a / b) of non-negative integers is the integer quotient (division by zero raises). *)
Definition get_fm_qubits (s : strategy) (i n_qubits n_features : nat) : option (list nat) :=
  match s with
  | Parallel => if Nat.eqb n_features 0 then None else
      let per := n_qubits / n_features in Some (seq (i * per) ((i + 1) * per - i * per))
  | Series => Some (seq 0 n_qubits)
  | StratOther => None
  end.
