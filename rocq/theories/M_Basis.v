(** Model of qadence/utils.py:55-165 (basis_to_int, int_to_basis, nqubits_to_basis, samples_to_integers) and of
    qadence/backends/utils.py:80-184 (count_bitstrings, to_list_of_dicts, infer_batchsize). *)
From Coq Require Import ZArith List Arith Bool Reals.
Import ListNotations.

(** Characters of Python's binary number format. *)
Inductive ch := C0 | C1 | Cminus.
Inductive endian := Big | Little.

(** Python's [format(k, "0{n}b")]: sign, then binary digits padded with zeros to a total width of at least n. *)
Fixpoint pos_digits (p : positive) : list ch :=
  match p with xH => [C1] | xO q => pos_digits q ++ [C0] | xI q => pos_digits q ++ [C1] end.
Definition zpad (n : nat) (l : list ch) : list ch := repeat C0 (n - length l) ++ l.
Definition py_format (k : Z) (n : nat) : list ch :=
  match k with
  | Z0 => zpad n [C0]
  | Zpos p => zpad n (pos_digits p)
  | Zneg p => Cminus :: zpad (n - 1) (pos_digits p)
  end.

(** Python's [int(s, 2)] on these characters: an optional sign and at least one digit; [None] is ValueError. *)
Fixpoint parse_digits (l : list ch) (acc : Z) : option Z :=
  match l with
  | [] => Some acc
  | C0 :: r => parse_digits r (2 * acc)
  | C1 :: r => parse_digits r (2 * acc + 1)
  | Cminus :: _ => None
  end.
Definition py_int2 (s : list ch) : option Z :=
  match s with
  | [] => None
  | Cminus :: [] => None
  | Cminus :: r => match parse_digits r 0 with Some k => Some (- k)%Z | None => None end
  | _ => parse_digits s 0
  end.

(** utils.py:55-80 *)
Definition basis_to_int (basis : list ch) (e : endian) : option Z :=
  match e with Big => py_int2 basis | Little => py_int2 (rev basis) end.

(** Python's [int(x)] on a real number: truncation towards zero. *)
Definition py_trunc (x : R) : Z := if Rlt_dec x 0 then (- Int_part (- x))%Z else Int_part x.

(** utils.py:83-115.  [None] is the AssertionError (or the ValueError of math.log / of a negative format width).
    The logarithms are exact reals. *)
Definition int_to_basis (k : Z) (n_qubits : option Z) (e : endian) : option (list ch) :=
  let n := match n_qubits with
           | Some n => Some n
           | None => if Rlt_dec 0 (IZR k + 6 / 10)%R then Some (py_trunc (ln (IZR k + 6 / 10) / ln 2) + 1)%Z else None
           end in
  match n with
  | None => None
  | Some n =>
      if (n <? 0)%Z then None
      else if (k <=? 2 ^ n - 1)%Z then
        let basis := py_format k (Z.to_nat n) in
        Some (match e with Big => basis | Little => rev basis end)
      else None
  end.

(** utils.py:118-150, result_type = STRING. *)
Definition nqubits_to_basis (n : nat) (e : endian) : list (option (list ch)) :=
  map (fun k => int_to_basis (Z.of_nat k) (Some (Z.of_nat n)) e) (seq 0 (2 ^ n)).

(** Counters: lists of (key, count) with distinct keys; assignment to a key overwrites. *)
Definition cset {K} (eqb : K -> K -> bool) (d : list (K * Z)) (k : K) (v : Z) : list (K * Z) :=
  if existsb (fun p => eqb (fst p) k) d then map (fun p => if eqb (fst p) k then (k, v) else p) d else d ++ [(k, v)].

(** utils.py:153-165: the dictionary comprehension {basis_to_int(k): v}; [None] when a key is not a number. *)
Fixpoint samples_to_integers_aux (samples : list (list ch * Z)) (e : endian) (acc : list (Z * Z)) : option (list (Z * Z)) :=
  match samples with
  | [] => Some acc
  | (s, v) :: r => match basis_to_int s e with
                   | Some k => samples_to_integers_aux r e (cset Z.eqb acc k v)
                   | None => None
                   end
  end.
Definition samples_to_integers (samples : list (list ch * Z)) (e : endian) := samples_to_integers_aux samples e [].

(** backends/utils.py:80-95 [count_bitstrings]: rows of the sample are 0/1 vectors with n columns.
    [torch.matmul(sample, powers_of_2)] *)
Fixpoint row_int (row : list bool) : nat :=
  match row with [] => 0 | b :: r => (if b then 1 else 0) * 2 ^ length r + row_int r end.
(** torch.bincount: counts of 0 .. max *)
Definition bincount (l : list nat) : list nat :=
  match l with [] => [] | _ => map (fun k => count_occ Nat.eq_dec l k) (seq 0 (S (list_max l))) end.
Definition count_bitstrings (n : nat) (sample : list (list bool)) (e : endian) : list (option (list ch) * nat) :=
  let c := bincount (map row_int sample) in
  map (fun kc => (int_to_basis (Z.of_nat (fst kc)) (Some (Z.of_nat n)) e, snd kc))
    (filter (fun kc => Nat.ltb 0 (snd kc)) (combine (seq 0 (length c)) c)).

(** Values of a parameter dictionary: one-dimensional tensors, or anything else ([POther]). *)
Inductive pval {X : Type} := PTensor (l : list X) | POther.
Arguments pval : clear implicits.
(** [v[i]] after batching: an element, or a whole row of the repeated tensor. *)
Inductive pent {X : Type} := EScalar (x : X) | ERow (l : list X).
Arguments pent : clear implicits.
Section Batch.
  Context {X K : Type}.
  Definition tensors (d : list (K * pval X)) : list (K * list X) :=
    flat_map (fun kv => match snd kv with PTensor l => [(fst kv, l)] | POther => [] end) d.
  Definition index_batched (m : nat) (l : list X) (i : nat) : option (pent X) :=
    if Nat.eqb (length l) m then match nth_error l i with Some x => Some (EScalar x) | None => None end
    else Some (ERow l).   (* v.repeat(m, 1)[i] is v itself *)
  (** backends/utils.py:98-109 [to_list_of_dicts]; [None] is the ValueError of [max] without tensors. *)
  Definition to_list_of_dicts (d : list (K * pval X)) : option (list (list (K * option (pent X))) + unit) :=
    match d with
    | [] => Some (inr tt)     (* [param_values] is returned in a list as it is *)
    | _ =>
        match tensors d with
        | [] => None
        | ts =>
            let m := list_max (map (fun kv => length (snd kv)) ts) in
            Some (inl (map (fun i => map (fun kv => (fst kv, index_batched m (snd kv) i)) ts) (seq 0 m)))
        end
    end.
  (** backends/utils.py:169-184 [infer_batchsize] *)
  Definition infer_batchsize (d : option (list (K * pval X))) : nat :=
    match d with
    | None | Some [] => 1
    | Some d => match tensors d with [] => 1 | ts => list_max (map (fun kv => length (snd kv)) ts) end
    end.
End Batch.

(** utils.py:263-286 [validate_values_and_state] for a torch state of batch size [bs]: true when accepted. *)
Definition validate_values_and_state (bs batch_values : nat) : bool :=
  negb (negb (Nat.eqb bs batch_values) && (Nat.ltb 1 batch_values && Nat.ltb 1 bs)).
