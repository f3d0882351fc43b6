(** C97: the matrices accepted for a MatrixBlock, and what [expand_to] gives. *)
From Coq Require Import String Reals List Arith Bool Lia Lra Sorted Permutation.
From Coquelicot Require Import Coquelicot.
From Coq Require Import List.
From Verif Require Import S_Ops M_QubitSupport M_Block S_Den L_Ops L_Den M_BlockOps M_Tensor L_Tensor M_Matrix.
Import ListNotations.
Open Scope nat_scope.

(** * Specification *)
(** The matrix [M] on the qubits 0, ..., n-1, the first of which is the most significant, is the operator [A]. *)
Definition is_matrix_of (n : nat) (M : tensor) (A : Op) : Prop := dim M = 2 ^ n /\ gate (seq 0 n) (nmat (ent M)) = A.

(** * Making a block *)
(** A block is made exactly of square matrices, possibly with a leading dimension of 1, with as many whole qubits as the support. *)
Theorem C97_made : forall m qs t qs', matrix_block m qs = Made t qs' <->
  exists d, (shape m = [d; d] \/ shape m = [1; d; d]) /\ 2 ^ length qs <= d < 2 ^ S (length qs) /\ t = mkT d (entries m) /\ qs' = qs.
Proof.
  intros m qs t qs'. assert (SQ : forall a b, squeeze (shape m) = [a; b] <-> shape m = [a; b] \/ shape m = [1; a; b]).
  { intros a b. unfold squeeze. destruct (shape m) as [|[|[|x]] [|y [|z [|u w]]]]; split; intros H; try (left; congruence); try (right; congruence); destruct H as [H|H]; congruence. }
  unfold matrix_block. split.
  - destruct (squeeze (shape m)) as [|a [|b [|c r]]] eqn:E; try discriminate. destruct (Nat.eqb_spec a b) as [->|]; cbn [negb]; [|discriminate].
    destruct (Nat.eqb_spec b 0) as [|NZ]; [discriminate|]. destruct (Nat.eqb_spec (Nat.log2 b) (length qs)) as [L|]; cbn [negb]; [|discriminate]. intros H. injection H as <- <-.
    exists b. split; [apply SQ; reflexivity|]. split; [|auto]. rewrite <- L. apply Nat.log2_spec. lia.
  - intros (d & S & L & -> & ->). apply SQ in S. rewrite S, Nat.eqb_refl. cbn [negb]. assert (0 < 2 ^ length qs) by (apply Nat.neq_0_lt_0, Nat.pow_nonzero; lia).
    destruct (Nat.eqb_spec d 0); [lia|]. rewrite (Nat.log2_unique d (length qs)) by lia. rewrite Nat.eqb_refl. reflexivity.
Qed.
(** The size need not be a power of two: a 3 by 3 matrix makes a block on one qubit, and every support has such a size. *)
Theorem C97_size_refuted : forall f q, matrix_block {| shape := [3; 3]; entries := f |} [q] = Made (mkT 3 f) [q] /\
  forall k qs, length qs = k -> 1 <= k -> exists d, (forall j, d <> 2 ^ j) /\ matrix_block {| shape := [d; d]; entries := f |} qs = Made (mkT d f) qs.
Proof.
  intros f q. split; [reflexivity|]. intros k qs L K. exists (2 ^ k + 1). split.
  - intros j E. destruct j as [|j]; [cbn in E; pose proof (Nat.pow_nonzero 2 k); lia|]. destruct k as [|k]; [lia|]. rewrite !Nat.pow_succ_r' in E. lia.
  - apply C97_made. exists (2 ^ k + 1). split; [left; reflexivity|]. rewrite L. split; [|auto]. rewrite Nat.pow_succ_r'. destruct k as [|k]; [lia|]. rewrite Nat.pow_succ_r'. pose proof (Nat.pow_nonzero 2 k). lia.
Qed.

(** * Expanding *)
Lemma sorted_seq n : sorted (seq 0 n) = seq 0 n.
Proof.
  apply ss_unique; [apply sorted_ss| |apply sorted_perm]. generalize 0. induction n as [|n IH]; intros a; cbn [seq]; constructor; [apply IH|].
  apply Forall_forall. intros x H. apply in_seq in H. lia.
Qed.
(** On consecutive qubits in ascending order the expanded matrix is that of the operation the block stands for. *)
Theorem C97_expand : forall rho m a k n, 1 <= k -> a + k <= n -> dim m = 2 ^ k ->
  exists M, expand_to m (seq a k) n = Some M /\ is_matrix_of n M (den rho (BMat (ent m) (seq a k))).
Proof.
  intros rho m a k n K L D. unfold expand_to. destruct (Nat.ltb_spec 1 n) as [H|H].
  - destruct (fill_rep_many BIG m (seq a k) (seq 0 n) (seq 0 a) (seq (a + k) (n - a - k)) (den rho (BMat (ent m) (seq a k)))) as (M & E & R).
    + apply seq_NoDup.
    + destruct k; [lia|discriminate].
    + cbn [ord]. rewrite sorted_seq. replace n with (a + (k + (n - a - k))) at 1 by lia. rewrite !seq_app. reflexivity.
    + split; [rewrite seq_length; exact D|reflexivity].
    + exists M. split; [exact E|]. cbn [ord] in R. rewrite sorted_seq in R. destruct R as [R1 R2]. rewrite seq_length in R1. split; assumption.
  - assert (a = 0 /\ k = 1 /\ n = 1) as (-> & -> & ->) by lia. exists m. split; [reflexivity|]. split; [exact D|reflexivity].
Qed.
(** If none of the qubits of the block is among those expanded to, the result is the identity, whatever the matrix. *)
Theorem C97_outside : forall m qs n, 1 < n -> qs <> [] -> (forall q, In q qs -> n <= q) ->
  exists M, expand_to m qs n = Some M /\ is_matrix_of n M idop.
Proof.
  intros m qs n H NE OUT. unfold expand_to. destruct (Nat.ltb_spec 1 n) as [_|]; [|lia]. unfold t_fill_identities. rewrite sorted_seq. destruct n as [|n]; [lia|]. cbn [seq].
  destruct (sorted qs) as [|q0 s] eqn:E; [exfalso; apply NE, length_zero_iff_nil; rewrite <- sorted_length, E; reflexivity|].
  assert (I : forall q, In q (q0 :: s) -> S n <= q) by (intros q I; apply OUT, in_sorted; rewrite E; exact I).
  destruct (Nat.eqb_spec q0 0) as [Z|_]; [specialize (I q0 (or_introl eq_refl)); lia|]. eexists. split; [reflexivity|].
  destruct (fill_ids BIG m (q0 :: s) q0 (or_introl eq_refl) (seq 1 n) [0] IMAT idop) as [R1 R2].
  - change ([0] ++ seq 1 n) with (seq 0 (S n)). apply seq_NoDup.
  - intros q Hq Hin. apply in_seq in Hq. specialize (I q Hin). lia.
  - apply rep_id1.
  - cbn [ord app] in R1, R2. split; [rewrite R1; cbn [length]; rewrite seq_length; reflexivity|exact R2].
Qed.
(** [expand_to] with 0 or 1 qubits, the default, gives the matrix itself, of whatever size. *)
Theorem C97_default_refuted : forall m qs, dim m = 4 -> expand_to m qs 1 = Some m /\ forall A, ~ is_matrix_of 1 m A.
Proof. intros m qs D. split; [reflexivity|]. intros A [E _]. rewrite D in E. discriminate E. Qed.
Example C97_example : let swap := fun i j => if Nat.eqb (i + j) 3 && negb (Nat.eqb (i mod 3) 0) then RtoC 1 else if Nat.eqb i j && Nat.eqb (i mod 3) 0 then RtoC 1 else RtoC 0 in
  matrix_block {| shape := [1; 4; 4]; entries := swap |} [1; 2] = Made (mkT 4 swap) (seq 1 2) /\ matrix_block {| shape := [4; 4]; entries := swap |} [1] = ValueError /\
  matrix_block {| shape := [2; 4]; entries := swap |} [1] = TypeError /\ matrix_block {| shape := [2; 4; 4]; entries := swap |} [1; 2] = TypeError /\ 1 + 2 <= 4 /\ dim (mkT 4 swap) = 2 ^ 2.
Proof. repeat split. auto. Qed.
Print Assumptions C97_made.
Print Assumptions C97_size_refuted.
Print Assumptions C97_expand.
Print Assumptions C97_outside.
Print Assumptions C97_default_refuted.
