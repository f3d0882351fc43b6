(** C34: learning-rate schedulers follow their documented curve. *)
From Coq Require Import Reals List ZArith Lia Lra.
From Verif Require Import M_Schedulers.
Import ListNotations.
Open Scope R_scope.

Theorem C34_step_decay : forall gamma k o, step_calls gamma k o = map (fun lr0 => lr0 * gamma ^ k) o.
Proof.
  intros gamma k. induction k as [|k IH]; intros o; cbn [step_calls].
  - rewrite <- (map_id o) at 1. apply map_ext. intros a. simpl. ring.
  - rewrite IH. unfold step_decay. rewrite map_map. apply map_ext. intros a. simpl. ring.
Qed.

(** Specification: the triangular wave of period 2*s, rising from 0 at multiples of 2*s to 1 at odd multiples of s. *)
Definition triangle (s t : Z) : R := let r := (t mod (2 * s))%Z in if Z.leb r s then IZR r / IZR s else IZR (2 * s - r) / IZR s.

Lemma triangle_bounds s t : (0 < s)%Z -> 0 <= triangle s t <= 1.
Proof.
  intros Hs. unfold triangle. pose proof (Z.mod_pos_bound t (2 * s) ltac:(lia)) as B. set (r := (t mod (2 * s))%Z) in *. assert (P : 0 < IZR s) by (apply IZR_lt; lia).
  destruct (Z.leb_spec r s); split.
  - apply Rmult_le_reg_r with (IZR s); [exact P|]. unfold Rdiv. rewrite Rmult_assoc, Rinv_l, Rmult_0_l, Rmult_1_r by lra. apply IZR_le. lia.
  - apply Rmult_le_reg_r with (IZR s); [exact P|]. unfold Rdiv. rewrite Rmult_assoc, Rinv_l, Rmult_1_l, Rmult_1_r by lra. apply IZR_le. lia.
  - apply Rmult_le_reg_r with (IZR s); [exact P|]. unfold Rdiv. rewrite Rmult_assoc, Rinv_l, Rmult_0_l, Rmult_1_r by lra. apply IZR_le. lia.
  - apply Rmult_le_reg_r with (IZR s); [exact P|]. unfold Rdiv. rewrite Rmult_assoc, Rinv_l, Rmult_1_l, Rmult_1_r by lra. apply IZR_le. lia.
Qed.

Lemma cyclic_scale s t : (0 < s)%Z -> Rmax 0 (1 - Rabs (IZR t / IZR s - 2 * IZR (t / (2 * s)) - 1)) = triangle s t.
Proof.
  intros Hs. pose proof (triangle_bounds s t Hs) as TB. unfold triangle in *. pose proof (Z.mod_pos_bound t (2 * s) ltac:(lia)) as B. pose proof (Z.div_mod t (2 * s) ltac:(lia)) as D.
  set (r := (t mod (2 * s))%Z) in *. set (c := (t / (2 * s))%Z) in *. assert (P : 0 < IZR s) by (apply IZR_lt; lia).
  assert (E : IZR t / IZR s - 2 * IZR c - 1 = IZR r / IZR s - 1).
  { rewrite D, plus_IZR, !mult_IZR. field. lra. }
  rewrite E. destruct (Z.leb_spec r s) as [L|L].
  - assert (Q : IZR r / IZR s <= 1) by apply TB. rewrite Rabs_left1 by lra. rewrite Rmax_right by lra. lra.
  - assert (Q : 1 <= IZR r / IZR s).
    { apply Rmult_le_reg_r with (IZR s); [exact P|]. unfold Rdiv. rewrite Rmult_assoc, Rinv_l, Rmult_1_l, Rmult_1_r by lra. apply IZR_le. lia. }
    assert (W : IZR (2 * s - r) / IZR s = 2 - IZR r / IZR s) by (rewrite minus_IZR, mult_IZR; field; lra).
    rewrite Rabs_right by lra. rewrite Rmax_right; lra.
Qed.

(** The cyclic scheduler is the triangular wave between base_lr and max_lr: exact values, bounds, period, extremes. *)
Theorem C34_cyclic : forall base_lr max_lr s t, (0 < s)%Z ->
  cyclic_lr base_lr max_lr s t = Some (base_lr + (max_lr - base_lr) * triangle s t).
Proof. intros b m s t Hs. unfold cyclic_lr. destruct (Z.eqb_spec s 0); [lia|]. rewrite cyclic_scale by exact Hs. reflexivity. Qed.
Theorem C34_cyclic_bounds : forall base_lr max_lr s t, (0 < s)%Z -> base_lr <= max_lr ->
  exists lr, cyclic_lr base_lr max_lr s t = Some lr /\ base_lr <= lr <= max_lr.
Proof.
  intros b m s t Hs L. eexists. split; [apply C34_cyclic, Hs|]. pose proof (triangle_bounds s t Hs) as [T1 T2].
  assert (0 <= (m - b) * triangle s t) by (apply Rmult_le_pos; lra). assert ((m - b) * triangle s t <= (m - b) * 1) by (apply Rmult_le_compat_l; lra). lra.
Qed.
Theorem C34_cyclic_period : forall base_lr max_lr s t, (0 < s)%Z -> cyclic_lr base_lr max_lr s (t + 2 * s) = cyclic_lr base_lr max_lr s t.
Proof.
  intros b m s t Hs. rewrite !C34_cyclic by exact Hs. unfold triangle. replace (t + 2 * s)%Z with (t + 1 * (2 * s))%Z by lia. rewrite Z.mod_add by lia. reflexivity.
Qed.
Theorem C34_cyclic_extremes : forall base_lr max_lr s k, (0 < s)%Z ->
  cyclic_lr base_lr max_lr s (2 * s * k) = Some base_lr /\ cyclic_lr base_lr max_lr s (2 * s * k + s) = Some max_lr.
Proof.
  intros b m s k Hs. rewrite !C34_cyclic by exact Hs. unfold triangle. assert (P : IZR s <> 0) by (apply not_0_IZR; lia). split; f_equal.
  - rewrite (Z.mul_comm (2 * s) k), Z.mod_mul by lia. destruct (Z.leb_spec 0 s); [|lia]. unfold Rdiv. ring.
  - rewrite (Z.mul_comm (2 * s) k), Z.add_comm, Z.mod_add, Z.mod_small by lia. rewrite Z.leb_refl. field. exact P.
Qed.
(** All groups get the same new value; nothing else in the list changes. *)
Theorem C34_cyclic_groups : forall base_lr max_lr s t o lr, cyclic_lr base_lr max_lr s t = Some lr -> cyclic base_lr max_lr s t o = Some (repeat lr (length o)).
Proof. intros b m s t o lr E. unfold cyclic. rewrite E. f_equal. induction o as [|x o IH]; [reflexivity|]. simpl. rewrite IH. reflexivity. Qed.

(** Cosine annealing: what the code computes after calls at iterations [its] is a product of the documented factors... *)
Definition documented_cosine (min_lr lr0 : R) (t_max t : Z) : R := min_lr + (lr0 - min_lr) * ((1 + cos (PI * IZR t / IZR t_max)) / 2).
Fixpoint factor (t_max : Z) (its : list Z) : R := match its with [] => 1 | t :: r => (1 + cos (PI * IZR t / IZR t_max)) / 2 * factor t_max r end.
Theorem C34_cosine_product : forall min_lr t_max its o, t_max <> 0%Z ->
  cosine_calls min_lr t_max its o = Some (map (fun lr0 => min_lr + (lr0 - min_lr) * factor t_max its) o).
Proof.
  intros m tm its o H. revert o. induction its as [|t its IH]; intros o; cbn [cosine_calls factor].
  - f_equal. rewrite <- (map_id o) at 1. apply map_ext. intros a. ring.
  - unfold cosine. destruct (Z.eqb_spec tm 0); [congruence|]. rewrite IH, map_map. f_equal. apply map_ext. intros a. field.
Qed.
(** ... so one call follows the documented curve, *)
Theorem C34_cosine_one_call_partial : forall min_lr t_max t o, t_max <> 0%Z -> cosine_calls min_lr t_max [t] o = Some (map (fun lr0 => documented_cosine min_lr lr0 t_max t) o).
Proof. intros m tm t o H. rewrite C34_cosine_product by exact H. f_equal. apply map_ext. intros a. unfold documented_cosine. simpl. ring. Qed.
(** ... it always stays between min_lr and the initial rate, *)
Theorem C34_cosine_bounds : forall min_lr t_max its lr0, t_max <> 0%Z -> min_lr <= lr0 ->
  exists lr, cosine_calls min_lr t_max its [lr0] = Some [lr] /\ min_lr <= lr <= lr0.
Proof.
  intros m tm its lr0 H L. eexists. split; [rewrite C34_cosine_product by exact H; reflexivity|].
  assert (F : 0 <= factor tm its <= 1).
  { induction its as [|t its IH]; [simpl; lra|]. simpl. pose proof (COS_bound (PI * IZR t / IZR tm)) as [C1 C2]. destruct IH as [I1 I2]. split.
    - apply Rmult_le_pos; lra.
    - rewrite <- (Rmult_1_r 1). apply Rmult_le_compat; lra. }
  assert (0 <= (lr0 - m) * factor tm its) by (apply Rmult_le_pos; lra). assert ((lr0 - m) * factor tm its <= (lr0 - m) * 1) by (apply Rmult_le_compat_l; lra). lra.
Qed.
(** ... but two calls do not follow it: the rate is annealed again from its current value instead of its initial value. *)
Theorem C34_cosine_refuted : exists min_lr lr0 t_max, cosine_calls min_lr t_max [1%Z; 2%Z] [lr0] <> Some [documented_cosine min_lr lr0 t_max 2].
Proof.
  exists 0, 1, 3%Z. rewrite C34_cosine_product by lia. unfold documented_cosine. simpl. intros H. injection H as H.
  replace (PI * 1 / 3) with (PI / 3) in H by field. replace (PI * 2 / 3) with (2 * (PI / 3)) in H by field. rewrite cos_2PI3, cos_PI3 in H. lra.
Qed.

Example C34_witness : step_calls (1/2) 3 [1; 8] = [1/8; 1] /\ cyclic_lr 0 1 4 10 = Some (1/2) /\ cosine_calls 0 2 [1%Z] [1] = Some [1/2].
Proof.
  split; [rewrite C34_step_decay; simpl; f_equal; [field|f_equal; field]|]. split.
  - rewrite C34_cyclic by lia. change (triangle 4 10) with (2 / 4). f_equal. field.
  - rewrite C34_cosine_product by lia. simpl. replace (PI * 1 / 2) with (PI / 2) by field. rewrite cos_PI2. f_equal. f_equal. field.
Qed.
Print Assumptions C34_step_decay.
Print Assumptions C34_cyclic.
Print Assumptions C34_cyclic_bounds.
Print Assumptions C34_cyclic_period.
Print Assumptions C34_cyclic_extremes.
Print Assumptions C34_cosine_product.
Print Assumptions C34_cosine_bounds.
Print Assumptions C34_cosine_refuted.
