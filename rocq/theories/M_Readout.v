(** Model of qadence/mitigations/readout.py:23-165 (readout mitigation with the MLE option).
    Real numbers stand for floats. *)
From Coq Require Import Reals List ZArith Bool.
From Verif Require Import M_PSR.
Import ListNotations.
Open Scope R_scope.

(** readout.py:32-45 on the sorted vector [l].  [zeroed] entries have been set to zero so far and [neg] is the accumulated
    [neg_sum]; [length l] is [len(p_sort) - i].  The last case is a loop that never breaks: all entries are zero and the
    last one receives the whole [neg_sum]. *)
Fixpoint mle_loop (zeroed : nat) (neg : R) (l : list R) : list R :=
  match l with
  | [] => match zeroed with O => [] | S k => repeat 0 k ++ [0 + neg / 1] end
  | x :: r => if Rlt_dec (x + neg / INR (length l)) 0 then mle_loop (S zeroed) (neg + x) r
              else repeat 0 zeroed ++ map (fun y => y + neg / INR (length l)) l
  end.

Section Mle.
  (** numpy argsort. *)
  Variable argsort : list R -> list nat.
  (** readout.py:23-51. *)
  Definition mle_solve (p_raw : list R) : list R :=
    let index_sort := argsort p_raw in
    let p_sort := mle_loop 0 0 (map (fun i => nth i p_raw 0) index_sort) in
    let re_index_sort := argsort (map INR index_sort) in
    map (fun i => nth i p_sort 0) re_index_sort.
End Mle.

Fixpoint zsum (l : list Z) : Z := match l with [] => 0%Z | x :: r => (x + zsum r)%Z end.

(** readout.py:54-65.  [None]: division by a zero sum. *)
Definition renormalize_counts (counts : list Z) (n_shots : Z) : option (list Z) :=
  let total := zsum counts in
  if Z.eqb total n_shots then Some counts
  else
    let counts_diff := (total - n_shots)%Z in
    let counts := map (fun c => (c - counts_diff)%Z) counts in
    let counts := map (fun c => if Z.ltb c 0 then 0%Z else c) counts in
    let s := zsum counts in
    if Z.eqb s 0 then None
    else Some (map (fun c => rint (IZR c * (IZR n_shots / IZR s))) counts).

(** numpy argmax: the first index of a largest entry. *)
Fixpoint argmax_from (best : Z) (ibest i : nat) (l : list Z) : nat :=
  match l with [] => ibest | x :: r => if Z.ltb best x then argmax_from x i (S i) r else argmax_from best ibest (S i) r end.
Definition argmax (l : list Z) : nat := match l with [] => 0%nat | x :: r => argmax_from x 0 1 r end.
Fixpoint sub_at (i : nat) (d : Z) (l : list Z) : list Z :=
  match l, i with [] , _ => [] | x :: r, O => (x - d)%Z :: r | x :: r, S j => x :: sub_at j d r end.

(** readout.py:144-157: probabilities to counts. *)
Definition to_counts (p_corr : list R) (n_shots : Z) : option (list Z) :=
  let counts := map (fun p => rint (p * IZR n_shots)) p_corr in
  match renormalize_counts counts n_shots with
  | None => None
  | Some counts =>
      let count_diff := (zsum counts - n_shots)%Z in
      Some (if Z.eqb (zsum counts) n_shots then counts else sub_at (argmax counts) count_diff counts)
  end.
(** readout.py:158-162: only positive counts enter the counter; outcomes are numbered in lexicographic order. *)
Definition counter_of (counts : list Z) : list (nat * Z) :=
  filter (fun kc => Z.ltb 0 (snd kc)) (combine (seq 0 (length counts)) counts).
Definition mitigate_mle (argsort : list R -> list nat) (T_inv_p : list R) (n_shots : Z) : option (list (nat * Z)) :=
  match to_counts (mle_solve argsort T_inv_p) n_shots with Some c => Some (counter_of c) | None => None end.

(** Matrices are lists of rows; numpy's [@] and [np.kron]. *)
Fixpoint dot (r v : list R) : R := match r, v with x :: r', y :: v' => x * y + dot r' v' | _, _ => 0 end.
Definition matvec (M : list (list R)) (v : list R) : list R := map (fun r => dot r v) M.
Definition kron_rows (ra rb : list R) : list R := flat_map (fun a => map (fun b => a * b) rb) ra.
Definition np_kron (A B : list (list R)) : list (list R) := flat_map (fun ra => map (kron_rows ra) B) A.
(** functools.reduce on a non-empty list (readout.py:118-119); [None]: empty sequence, a TypeError. *)
Definition reduce_kron (l : list (list (list R))) : option (list (list R)) :=
  match l with [] => None | m :: r => Some (fold_left np_kron r m) end.
(** readout.py:100-162 for one sample with the MLE option: [sample] lists the counts of all bitstrings in lexicographic order,
    [n_shots] is the total of the first sample, [matrix_inv] is numpy's inverse (pseudo-inverse for singular matrices) and
    [noise_matrices] the confusion matrices of the qubits, provided by pyqtorch. *)
Definition mitigation_minimization (argsort : list R -> list nat) (matrix_inv : list (list R) -> list (list R))
    (noise_matrices : list (list (list R))) (sample : list Z) (n_shots : Z) : option (list (nat * Z)) :=
  match reduce_kron (map matrix_inv noise_matrices) with
  | None => None
  | Some T_inv => mitigate_mle argsort (matvec T_inv (map (fun c => IZR c / IZR n_shots) sample)) n_shots
  end.
