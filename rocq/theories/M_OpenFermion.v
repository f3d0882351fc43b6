(** Exchange of observables with OpenFermion: qadence/blocks/manipulate.py.

    OpenFermion itself is not part of the library: its [QubitOperator] is a record of operations
    ([qubit_operators]), constrained by the contract of P_OpenFermion.v; an implementation that meets
    the contract is given there.  The value of a parameter is the one stored in it when the block is
    converted ([rho0], the result of [evaluate], parameters.py:233-283).  Analog blocks, for which the
    registered default calls itself without end (manipulate.py:47-49), are not represented. *)
From Coq Require Import String Reals List Arith Bool.
From Coquelicot Require Import Coquelicot.
From Coq Require Import List.
From Verif Require Import S_Ops M_Block M_BlockOps M_Tensor M_Transpile.
Import ListNotations.
Open Scope R_scope.
Open Scope C_scope.

(** The letters of a term of a QubitOperator. *)
Inductive pauli : Type := PauliX | PauliY | PauliZ.
Definition pauli_prim (p : pauli) : prim := match p with PauliX => PX | PauliY => PY | PauliZ => PZ end.
(** A term: (qubit, letter) pairs; the identity is the empty term. *)
Definition term := list (nat * pauli).

(** What manipulate.py uses of openfermion: [QubitOperator("X3")], [QubitOperator("")], [*] of two
    operators, [+], [*] with a number, [terms] (in dictionary order) and [count_qubits]. *)
Record qubit_operators : Type := {
  qop : Type;
  q_pauli : pauli -> nat -> qop;
  q_unit : qop;
  q_mul : qop -> qop -> qop;
  q_add : qop -> qop -> qop;
  q_scale : qop -> C -> qop;
  q_terms : qop -> list (term * C);
  q_count : qop -> nat
}.

(** functools.reduce without initial value: [None] for the TypeError on an empty sequence. *)
Definition reduce {A : Type} (f : A -> A -> A) (l : list A) : option A :=
  match l with [] => None | x :: r => Some (fold_left f r x) end.

Section Convert.
  Variable O : qubit_operators.
  Variable rho0 : env.

  (** manipulate.py:14-49 [to_openfermion]: the dispatch of lines 19-22 (primitive blocks: the name of the
      block followed by its first qubit; a name that is not a Pauli letter makes QubitOperator raise), 25-27
      (I), 30-32 (composites: product in the order of the blocks), 35-37 (sums), 40-43 (scaled blocks). *)
  Fixpoint to_openfermion (b : block) : option (qop O) :=
    match b with
    | BPrim PX q => Some (q_pauli O PauliX q)
    | BPrim PY q => Some (q_pauli O PauliY q)
    | BPrim PZ q => Some (q_pauli O PauliZ q)
    | BPrim PI_ _ => Some (q_unit O)
    | BScale b' e => option_map (fun op => q_scale O op (ev rho0 e)) (to_openfermion b')
    | BChain bs | BKron bs => obind (osequence (map to_openfermion bs)) (reduce (q_mul O))
    | BAdd bs => obind (osequence (map to_openfermion bs)) (reduce (q_add O))
    | _ => None
    end.

  (** Results of [from_openfermion]: a block; the scaled identity on "qubit -1"; an exception. *)
  Inductive converted : Type :=
  | Converted (b : block)
  | IdentityOnMinusOne (c : C)
  | Raised.

  Variable set_iter : list nat -> list nat.

  (** manipulate.py:55-57 [_convert_gate]. *)
  Definition convert_gate (g : nat * pauli) : block := BPrim (pauli_prim (snd g)) (fst g).

  (** manipulate.py:71-75 [_convert] of a term; [n] is the number of qubits of the whole operator, not 0. *)
  Definition convert_term (n : nat) (t : term) : option block :=
    match t with
    | [] => Some (BPrim PI_ (n - 1))
    | [g] => Some (convert_gate g)
    | _ => mk_kron set_iter (map convert_gate t)
    end.

  (** manipulate.py:66-69 [_convert] of the dictionary of terms. *)
  Definition convert_terms (n : nat) (ts : list (term * C)) : option block :=
    match osequence (map (fun tc => option_map (fun b => op_scale b (ECst (snd tc))) (convert_term n (fst tc))) ts) with
    | Some [b] => Some b
    | Some (b :: bs) => Some (BAdd (b :: bs))
    | _ => None
    end.

  (** manipulate.py:52-77 [from_openfermion].  An operator on no qubit has at most the identity term, and
      [operations.I(n_qubits - 1)] is then I(-1) (line 73). *)
  Definition from_openfermion (op : qop O) : converted :=
    match q_count O op, q_terms O op with
    | _, [] => Raised
    | 0%nat, (_, c) :: _ => IdentityOnMinusOne c
    | n, ts => match convert_terms n ts with Some b => Converted b | None => Raised end
    end.
End Convert.
