(** C42: addressing patterns respect the device's limits. *)
From Coq Require Import Reals List Bool Arith Lra Lia.
From Verif Require Import M_PSR M_Addressing.
Import ListNotations.
Open Scope R_scope.

(** * Weights *)
Lemma sig_pos x a b : 0 < sigmoid x a b < 1.
Proof.
  unfold sigmoid. pose proof (exp_pos (- a * (x + b))) as E. split.
  - apply Rdiv_lt_0_compat; lra.
  - apply (Rmult_lt_reg_r (1 + exp (- a * (x + b)))); [lra|]. unfold Rdiv. rewrite Rmult_assoc, Rinv_l; lra.
Qed.
Lemma sig_neg x b : 1 - sigmoid x 20 b = sigmoid (- x) 20 (- b).
Proof.
  unfold sigmoid. replace (- (20) * (- x + - b)) with (- (- (20) * (x + b))) by ring. rewrite exp_Ropp. pose proof (exp_pos (- (20) * (x + b))). field. lra.
Qed.
Lemma sig_mono x : sigmoid x 20 (-1) <= sigmoid x 20 1.
Proof.
  unfold sigmoid. pose proof (exp_pos (- (20) * (x + -1))). pose proof (exp_pos (- (20) * (x + 1))).
  unfold Rdiv. rewrite !Rmult_1_l. apply Rinv_le_contravar; [lra|]. apply Rplus_le_compat_l. left. apply exp_increasing. lra.
Qed.
Lemma exp_ge x : 1 + x <= exp x.
Proof. apply exp_ineq1_le. Qed.
Lemma soft_pos v : 0 <= v -> v * (sigmoid v 20 1 - sigmoid v 20 (-1)) <= 1.
Proof.
  intros Hv. pose proof (sig_pos v 20 1) as [_ S1]. pose proof (sig_neg v (-1)) as E. replace (- -1) with 1 in E by ring.
  assert (B : v * sigmoid (- v) 20 1 <= 1).
  { unfold sigmoid. set (u := v - 1). replace (- (20) * (- v + 1)) with (20 * u) by (unfold u; ring). pose proof (exp_pos (20 * u)) as P. pose proof (exp_ge (20 * u)) as Q.
    apply (Rmult_le_reg_r (1 + exp (20 * u))); [lra|]. unfold Rdiv. replace (v * (1 * / (1 + exp (20 * u))) * (1 + exp (20 * u))) with v by (field; lra).
    destruct (Rle_dec 0 u); unfold u in *; lra. }
  assert (v * (sigmoid v 20 1 - sigmoid v 20 (-1)) <= v * sigmoid (- v) 20 1) by (apply Rmult_le_compat_l; lra). lra.
Qed.
Lemma soft_even v : sigmoid (- v) 20 1 - sigmoid (- v) 20 (-1) = sigmoid v 20 1 - sigmoid v 20 (-1).
Proof. pose proof (sig_neg v (-1)) as A. pose proof (sig_neg v 1) as B. replace (- -1) with 1 in A by ring. replace (- (1)) with (-1) in B by ring. lra. Qed.
Lemma soft_bounds v : 0 <= Rabs (v * (sigmoid v 20 1 - sigmoid v 20 (-1))) <= 1.
Proof.
  split; [apply Rabs_pos|]. rewrite Rabs_mult, (Rabs_pos_eq (sigmoid v 20 1 - _)) by (pose proof (sig_mono v); lra).
  destruct (Rle_dec 0 v) as [H|H].
  - rewrite Rabs_pos_eq by exact H. apply soft_pos, H.
  - rewrite Rabs_left by lra. rewrite <- soft_even. apply soft_pos. lra.
Qed.
Lemma get_valid d i w : validate_weights d = true -> get d i = Some w -> valid_weight w = true.
Proof.
  unfold validate_weights. induction d as [|[k v] d IH]; simpl; [discriminate|]. intros H G. apply andb_true_iff in H as [H1 H2].
  destruct (Nat.eqb k i); [injection G as <-; exact H1|apply IH; assumption].
Qed.
Lemma weight_bounds d i : validate_weights d = true -> 0 <= constrain_weight (get d i) <= 1.
Proof.
  intros H. destruct (get d i) as [[v|v]|] eqn:E; simpl; [| |lra].
  - apply (get_valid d i _ H) in E. simpl in E. destruct (Rle_dec 0 v); [|discriminate]. destruct (Rle_dec v 1); [lra|discriminate].
  - apply soft_bounds.
Qed.

(** * Limits *)
Lemma heavi x : (x < 0 /\ heaviside x = 0) \/ (x = 0 /\ heaviside x = 1 / 2) \/ (0 < x /\ heaviside x = 1).
Proof. unfold heaviside. destruct (Rlt_dec x 0); [left; auto|]. destruct (Rlt_dec 0 x); [right; right; auto|right; left; split; [lra|reflexivity]]. Qed.
(** Clipping: keeps what is inside, halves at the boundary, drops what is outside. *)
Lemma clip_factor x m : 0 <= x -> 0 < m -> 0 <= heaviside x - heaviside (x - m) <= 1 /\ (m < x -> heaviside x - heaviside (x - m) = 0) /\
  (x = m -> heaviside x - heaviside (x - m) = 1 / 2) /\ (0 < x < m -> heaviside x - heaviside (x - m) = 1).
Proof.
  intros Hx Hm. destruct (heavi x) as [[A ->]|[[A ->]|[A ->]]]; destruct (heavi (x - m)) as [[B ->]|[[B ->]|[B ->]]]; repeat split; intros; lra.
Qed.
Lemma clip_lt x m : 0 <= x -> 0 < m -> 0 <= x * (heaviside x - heaviside (x - m)) < m.
Proof.
  intros Hx Hm. destruct (clip_factor x m Hx Hm) as (A & B & C & D). destruct (Rlt_dec m x) as [L|L].
  - rewrite (B L). lra.
  - destruct (Req_dec x m) as [E|E]; [rewrite (C E); lra|]. split; [apply Rmult_le_pos; lra|].
    assert (x * (heaviside x - heaviside (x - m)) <= x * 1) by (apply Rmult_le_compat_l; lra). lra.
Qed.
Lemma sym_clip x m : 0 < m -> 0 <= Rabs (x * (heaviside (x + m) - heaviside (x - m))) <= m.
Proof.
  intros Hm. split; [apply Rabs_pos|].
  destruct (heavi (x + m)) as [[A ->]|[[A ->]|[A ->]]]; destruct (heavi (x - m)) as [[B ->]|[[B ->]|[B ->]]]; rewrite Rabs_mult; try lra;
  rewrite ?Rminus_eq_0, ?Rabs_R0, ?Rmult_0_r; try lra.
  - replace (1 / 2 - 0) with (1 / 2) by ring. rewrite (Rabs_pos_eq (1 / 2)) by lra. replace x with (- m) by lra. rewrite Rabs_Ropp, Rabs_pos_eq; lra.
  - replace (1 - 0) with 1 by ring. rewrite Rabs_R1, Rmult_1_r. apply Rabs_le. lra.
  - replace (1 - 1 / 2) with (1 / 2) by field. rewrite (Rabs_pos_eq (1 / 2)) by lra. replace x with m by lra. rewrite Rabs_pos_eq; lra.
Qed.

Lemma rget_map (f : nat -> R) n i : forall a, (a <= i < a + n)%nat -> rget (map (fun j => (j, f j)) (seq a n)) i = Some (f i).
Proof.
  induction n as [|n IH]; intros a H; [lia|]. simpl. destruct (Nat.eqb_spec a i) as [->|E]; [reflexivity|]. apply IH. lia.
Qed.
Lemma rget_out (f : nat -> R) n i : forall a, ~ (a <= i < a + n)%nat -> rget (map (fun j => (j, f j)) (seq a n)) i = None.
Proof.
  induction n as [|n IH]; intros a H; [reflexivity|]. simpl. destruct (Nat.eqb_spec a i) as [->|E]; [lia|]. apply IH. lia.
Qed.
Definition cw (d : weights) (i : nat) : R := constrain_weight (get d i).
Lemma local_eq val n d m : local_constraint val (constrain_weights n d) m = map (fun i => (i, heaviside (val * cw d i) - heaviside (val * cw d i - m))) (seq 0 n).
Proof. unfold local_constraint, constrain_weights. rewrite map_map. reflexivity. Qed.

Section Pattern.
  Variables (n : nat) (wa wd : weights) (amp det : R) (p : pattern).
  Hypothesis HP : make_pattern n wa wd amp det = Some p.
  Let A := constrain_amp amp.
  Let D := - constrain_det det.
  Lemma p_eq : validate_weights wa = true /\ validate_weights wd = true /\ n <> O /\
    p = {| p_n := n; p_weights_amp := constrain_weights n wa; p_weights_det := constrain_weights n wd; p_amp := A; p_det := constrain_det det;
           p_local_amp := local_constraint A (constrain_weights n wa) LOCAL_MAX_AMPLITUDE; p_local_det := local_constraint D (constrain_weights n wd) LOCAL_MAX_DETUNING;
           p_global_amp := global_constraint A (constrain_weights n wa) GLOBAL_MAX_AMPLITUDE; p_global_det := global_constraint D (constrain_weights n wd) GLOBAL_MAX_DETUNING |}.
  Proof.
    unfold make_pattern in HP. destruct (validate_weights wa) eqn:Va; [|discriminate]. destruct (validate_weights wd) eqn:Vd; [|discriminate]. cbn [negb] in HP.
    destruct (keys_ok n (constrain_weights n wa)) eqn:K; [|discriminate]. cbn [negb] in HP. destruct (keys_ok n (constrain_weights n wd)); [|discriminate]. cbn [negb] in HP. injection HP as <-.
    split; [reflexivity|]. split; [reflexivity|]. split; [|reflexivity]. intros ->. discriminate K.
  Qed.
  Lemma A_bounds : 0 <= A <= 300.
  Proof. unfold A, constrain_amp. apply sym_clip. unfold GLOBAL_MAX_AMPLITUDE. lra. Qed.
  Lemma D_bounds : 0 <= D <= GLOBAL_MAX_DETUNING.
  Proof. unfold D, constrain_det. rewrite Ropp_involutive. apply sym_clip. unfold GLOBAL_MAX_DETUNING. pose proof PI_RGT_0. lra. Qed.
  Lemma amp_eq i : (i < n)%nat -> qubit_amp p i = Some (global_constraint A (constrain_weights n wa) GLOBAL_MAX_AMPLITUDE * A * (cw wa i * (heaviside (A * cw wa i) - heaviside (A * cw wa i - LOCAL_MAX_AMPLITUDE)))).
  Proof.
    intros H. destruct p_eq as (_ & _ & _ & ->). unfold qubit_amp. cbn [p_weights_amp p_local_amp p_global_amp p_amp]. rewrite local_eq.
    unfold constrain_weights at 1. rewrite (rget_map (fun i => constrain_weight (get wa i)) n i 0) by lia.
    rewrite (rget_map (fun i => heaviside (A * cw wa i) - heaviside (A * cw wa i - LOCAL_MAX_AMPLITUDE)) n i 0) by lia. reflexivity.
  Qed.
  Lemma det_eq i : (i < n)%nat -> qubit_det p i = Some (- (global_constraint D (constrain_weights n wd) GLOBAL_MAX_DETUNING * D * (cw wd i * (heaviside (D * cw wd i) - heaviside (D * cw wd i - LOCAL_MAX_DETUNING))))).
  Proof.
    intros H. destruct p_eq as (_ & _ & _ & ->). unfold qubit_det. cbn [p_weights_det p_local_det p_global_det p_det]. rewrite local_eq.
    unfold constrain_weights at 1. rewrite (rget_map (fun i => constrain_weight (get wd i)) n i 0) by lia.
    rewrite (rget_map (fun i => heaviside (D * cw wd i) - heaviside (D * cw wd i - LOCAL_MAX_DETUNING)) n i 0) by lia. unfold cw. f_equal. unfold D. ring.
  Qed.
End Pattern.

Lemma rsum_weights d n : validate_weights d = true -> 0 <= rsum (map snd (constrain_weights n d)).
Proof.
  intros V. unfold constrain_weights. rewrite map_map. simpl. generalize (seq 0 n) as l. induction l as [|i l IH]; simpl; [lra|]. pose proof (weight_bounds d i V). lra.
Qed.
Lemma global_factor val n d m : validate_weights d = true -> 0 <= val -> 0 < m -> 0 <= global_constraint val (constrain_weights n d) m <= 1 /\
  0 <= global_constraint val (constrain_weights n d) m * (val * rsum (map snd (constrain_weights n d))) < m.
Proof.
  intros V Hv Hm. unfold global_constraint. pose proof (rsum_weights d n V) as P. assert (Q : 0 <= val * rsum (map snd (constrain_weights n d))) by (apply Rmult_le_pos; assumption).
  split; [apply (clip_factor _ m Q Hm)|]. rewrite Rmult_comm. apply clip_lt; assumption.
Qed.
(** One qubit's share. *)
Lemma share_bounds G V w m : 0 <= G <= 1 -> 0 <= V -> 0 <= w -> 0 < m -> 0 <= G * V * (w * (heaviside (V * w) - heaviside (V * w - m))) < m /\
  G * V * (w * (heaviside (V * w) - heaviside (V * w - m))) <= G * (V * w).
Proof.
  intros HG HV Hw Hm. assert (Q : 0 <= V * w) by (apply Rmult_le_pos; assumption). destruct (clip_lt (V * w) m Q Hm) as [L1 L2]. destruct (clip_factor (V * w) m Q Hm) as [F _].
  replace (G * V * (w * (heaviside (V * w) - heaviside (V * w - m)))) with (G * (V * w * (heaviside (V * w) - heaviside (V * w - m)))) by ring.
  set (x := V * w * (heaviside (V * w) - heaviside (V * w - m))) in *. assert (G * x <= 1 * x) by (apply Rmult_le_compat_r; lra). split; [split; [apply Rmult_le_pos; lra|lra]|].
  apply Rmult_le_compat_l; [lra|]. unfold x. assert (V * w * (heaviside (V * w) - heaviside (V * w - m)) <= V * w * 1) by (apply Rmult_le_compat_l; lra). lra.
Qed.
Lemma share_sum G V (f : nat -> R) m l : 0 <= G <= 1 -> 0 <= V -> (forall i, 0 <= f i) -> 0 < m ->
  rsum (map (fun i => G * V * (f i * (heaviside (V * f i) - heaviside (V * f i - m)))) l) <= G * (V * rsum (map f l)).
Proof.
  intros HG HV Hf Hm. induction l as [|i l IH]; simpl; [lra|]. destruct (share_bounds G V (f i) m HG HV (Hf i) Hm) as [_ S].
  assert (E : G * (V * (f i + rsum (map f l))) = G * (V * f i) + G * (V * rsum (map f l))) by ring. lra.
Qed.

(** The constrained weights lie in [0,1]; one per qubit of the register. *)
Theorem C42_weights : forall n wa wd amp det p, make_pattern n wa wd amp det = Some p -> forall i w,
  rget (p_weights_amp p) i = Some w \/ rget (p_weights_det p) i = Some w -> (i < n)%nat /\ 0 <= w <= 1.
Proof.
  intros n wa wd amp det p H i w G. destruct (p_eq _ _ _ _ _ _ H) as (Va & Vd & _ & ->). cbn [p_weights_amp p_weights_det] in G. unfold constrain_weights in G.
  destruct (le_lt_dec n i) as [L|L].
  - rewrite (rget_out (fun i => constrain_weight (get wa i)) n i 0), (rget_out (fun i => constrain_weight (get wd i)) n i 0) in G by lia. destruct G; discriminate.
  - split; [exact L|]. rewrite (rget_map (fun i => constrain_weight (get wa i)) n i 0), (rget_map (fun i => constrain_weight (get wd i)) n i 0) in G by lia.
    destruct G as [G|G]; injection G as <-; apply weight_bounds; assumption.
Qed.
(** Every qubit receives an amplitude and a detuning within the local limits. *)
Theorem C42_local : forall n wa wd amp det p, make_pattern n wa wd amp det = Some p -> forall i, (i < n)%nat -> exists a d,
  qubit_amp p i = Some a /\ 0 <= a < 3 /\ qubit_det p i = Some d /\ - (2 * PI * 20) < d <= 0.
Proof.
  intros n wa wd amp det p H i Hi. destruct (p_eq _ _ _ _ _ _ H) as (Va & Vd & _ & _). eexists. eexists.
  split; [apply (amp_eq _ _ _ _ _ _ H i Hi)|]. split.
  - apply share_bounds; [|apply A_bounds|apply weight_bounds, Va|unfold LOCAL_MAX_AMPLITUDE; lra]. apply global_factor; [exact Va|apply A_bounds|unfold GLOBAL_MAX_AMPLITUDE; lra].
  - split; [apply (det_eq _ _ _ _ _ _ H i Hi)|]. pose proof PI_RGT_0 as HPI.
    assert (S : 0 <= global_constraint (- constrain_det det) (constrain_weights n wd) GLOBAL_MAX_DETUNING * (- constrain_det det) * (cw wd i * (heaviside (- constrain_det det * cw wd i) - heaviside (- constrain_det det * cw wd i - LOCAL_MAX_DETUNING))) < 2 * PI * 20).
    { apply share_bounds; [|apply (D_bounds det)|apply weight_bounds, Vd|lra]. apply global_factor; [exact Vd|apply (D_bounds det)|unfold GLOBAL_MAX_DETUNING; lra]. }
    lra.
Qed.
(** The totals stay within the global limits. *)
Theorem C42_total : forall n wa wd amp det p, make_pattern n wa wd amp det = Some p -> exists amps dets,
  map (qubit_amp p) (seq 0 n) = map Some amps /\ 0 <= rsum amps < 300 /\
  map (qubit_det p) (seq 0 n) = map Some dets /\ - (2 * PI * 2000) < rsum dets <= 0.
Proof.
  intros n wa wd amp det p H. destruct (p_eq _ _ _ _ _ _ H) as (Va & Vd & _ & _). pose proof PI_RGT_0 as HPI.
  set (A := constrain_amp amp). set (D := - constrain_det det).
  set (Ga := global_constraint A (constrain_weights n wa) GLOBAL_MAX_AMPLITUDE). set (Gd := global_constraint D (constrain_weights n wd) GLOBAL_MAX_DETUNING).
  assert (HA : 0 <= A <= 300) by apply A_bounds. assert (HD : 0 <= D <= GLOBAL_MAX_DETUNING) by apply D_bounds.
  destruct (global_factor A n wa GLOBAL_MAX_AMPLITUDE Va (proj1 HA) ltac:(unfold GLOBAL_MAX_AMPLITUDE; lra)) as [Fa Ta]. fold Ga in Fa, Ta.
  destruct (global_factor D n wd GLOBAL_MAX_DETUNING Vd (proj1 HD) ltac:(unfold GLOBAL_MAX_DETUNING; lra)) as [Fd Td]. fold Gd in Fd, Td.
  assert (EW : forall d, map snd (constrain_weights n d) = map (cw d) (seq 0 n)) by (intros d; unfold constrain_weights; rewrite map_map; reflexivity). rewrite EW in Ta, Td.
  exists (map (fun i => Ga * A * (cw wa i * (heaviside (A * cw wa i) - heaviside (A * cw wa i - LOCAL_MAX_AMPLITUDE)))) (seq 0 n)).
  exists (map (fun i => - (Gd * D * (cw wd i * (heaviside (D * cw wd i) - heaviside (D * cw wd i - LOCAL_MAX_DETUNING))))) (seq 0 n)).
  assert (NN : forall l, (forall x, In x l -> 0 <= x) -> 0 <= rsum l).
  { induction l as [|x l IH]; simpl; intros HL; [lra|]. pose proof (HL x (or_introl eq_refl)). pose proof (IH (fun y Hy => HL y (or_intror Hy))). lra. }
  split; [rewrite map_map; apply map_ext_in; intros i Hi; apply in_seq in Hi; apply (amp_eq _ _ _ _ _ _ H); lia|]. split.
  - split.
    + apply NN. intros x Hx. apply in_map_iff in Hx as (i & <- & _). apply share_bounds; [exact Fa|apply HA|apply weight_bounds, Va|unfold LOCAL_MAX_AMPLITUDE; lra].
    + eapply Rle_lt_trans; [apply share_sum; [exact Fa|apply HA|intros i; apply weight_bounds, Va|unfold LOCAL_MAX_AMPLITUDE; lra]|]. unfold GLOBAL_MAX_AMPLITUDE in Ta. apply Ta.
  - split; [rewrite map_map; apply map_ext_in; intros i Hi; apply in_seq in Hi; apply (det_eq _ _ _ _ _ _ H); lia|].
    assert (EO : forall (f : nat -> R) l, rsum (map (fun i => - f i) l) = - rsum (map f l)) by (intros f l; induction l as [|i l IH]; simpl; [ring|rewrite IH; ring]).
    rewrite EO. set (T := rsum _). assert (0 <= T).
    { apply NN. intros x Hx. apply in_map_iff in Hx as (i & <- & _). apply share_bounds; [exact Fd|apply HD|apply weight_bounds, Vd|unfold LOCAL_MAX_DETUNING; lra]. }
    assert (T < GLOBAL_MAX_DETUNING).
    { eapply Rle_lt_trans; [apply share_sum; [exact Fd|apply HD|intros i; apply weight_bounds, Vd|unfold LOCAL_MAX_DETUNING; lra]|]. apply Td. }
    unfold GLOBAL_MAX_DETUNING in *. lra.
Qed.
(** Inside the limits the constraints change nothing: qubit [i] receives [amp * w_i], and [- |det| * w_i]. *)
Theorem C42_inside : forall n wa wd amp det p, make_pattern n wa wd amp det = Some p -> forall i w, (i < n)%nat -> 0 < w ->
  (get wa i = Some (WNum w) -> Rabs amp < 300 -> 0 < Rabs amp * w < 3 -> Rabs amp * rsum (map (fun k => constrain_weight (get wa k)) (seq 0 n)) < 300 ->
     qubit_amp p i = Some (Rabs amp * w)) /\
  (get wd i = Some (WNum w) -> Rabs det < 2 * PI * 2000 -> 0 < Rabs det * w < 2 * PI * 20 -> Rabs det * rsum (map (fun k => constrain_weight (get wd k)) (seq 0 n)) < 2 * PI * 2000 ->
     qubit_det p i = Some (- (Rabs det * w))).
Proof.
  intros n wa wd amp det p H i w Hi Hw. destruct (p_eq _ _ _ _ _ _ H) as (Va & Vd & _ & _). pose proof PI_RGT_0 as HPI.
  assert (EW : forall d, map snd (constrain_weights n d) = map (fun k => constrain_weight (get d k)) (seq 0 n)) by (intros d; unfold constrain_weights; rewrite map_map; reflexivity).
  assert (SC : forall x m, Rabs x < m -> Rabs (x * (heaviside (x + m) - heaviside (x - m))) = Rabs x).
  { intros x m L. apply Rabs_def2 in L. destruct (heavi (x + m)) as [[? _]|[[? _]|[_ ->]]]; try lra. destruct (heavi (x - m)) as [[_ ->]|[[? _]|[? _]]]; try lra. f_equal. ring. }
  assert (SW : forall d, validate_weights d = true -> get d i = Some (WNum w) -> w <= rsum (map (fun k => constrain_weight (get d k)) (seq 0 n))).
  { intros d V G. assert (IN : In i (seq 0 n)) by (apply in_seq; lia). revert IN. generalize (seq 0 n). induction l as [|k l IH]; intros IN; [destruct IN|]. simpl.
    assert (R0 : 0 <= rsum (map (fun k => constrain_weight (get d k)) l)).
    { clear IH IN. induction l as [|j l IH]; simpl; [lra|]. pose proof (weight_bounds d j V). lra. }
    destruct IN as [->|IN]; [rewrite G; simpl; lra|]. specialize (IH IN). pose proof (weight_bounds d k V). lra. }
  split; intros G L1 L2 L3.
  - rewrite (amp_eq _ _ _ _ _ _ H i Hi). f_equal. unfold cw. rewrite G. cbn [constrain_weight]. unfold constrain_amp. rewrite SC by exact L1. unfold global_constraint. rewrite EW.
    destruct (clip_factor (Rabs amp * w) LOCAL_MAX_AMPLITUDE) as (_ & _ & _ & E1); [lra|unfold LOCAL_MAX_AMPLITUDE; lra|]. rewrite E1 by (unfold LOCAL_MAX_AMPLITUDE; lra).
    assert (P : Rabs amp * w <= Rabs amp * rsum (map (fun k => constrain_weight (get wa k)) (seq 0 n))) by (apply Rmult_le_compat_l; [apply Rabs_pos|apply SW; assumption]).
    destruct (clip_factor (Rabs amp * rsum (map (fun k => constrain_weight (get wa k)) (seq 0 n))) GLOBAL_MAX_AMPLITUDE) as (_ & _ & _ & E2); [lra|unfold GLOBAL_MAX_AMPLITUDE; lra|]. rewrite E2 by (unfold GLOBAL_MAX_AMPLITUDE; lra). ring.
  - rewrite (det_eq _ _ _ _ _ _ H i Hi). f_equal. unfold cw. rewrite G. cbn [constrain_weight]. unfold constrain_det. rewrite Ropp_involutive, SC by exact L1. unfold global_constraint. rewrite EW.
    destruct (clip_factor (Rabs det * w) LOCAL_MAX_DETUNING) as (_ & _ & _ & E1); [lra|unfold LOCAL_MAX_DETUNING; lra|]. rewrite E1 by (unfold LOCAL_MAX_DETUNING; lra).
    assert (P : Rabs det * w <= Rabs det * rsum (map (fun k => constrain_weight (get wd k)) (seq 0 n))) by (apply Rmult_le_compat_l; [apply Rabs_pos|apply SW; assumption]).
    destruct (clip_factor (Rabs det * rsum (map (fun k => constrain_weight (get wd k)) (seq 0 n))) GLOBAL_MAX_DETUNING) as (_ & _ & _ & E2); [lra|unfold GLOBAL_MAX_DETUNING; lra|]. rewrite E2 by (unfold GLOBAL_MAX_DETUNING; lra). ring.
Qed.
(** A pattern is accepted exactly when the register has a qubit and every numeric weight lies in [0,1]. *)
Theorem C42_accepted : forall n wa wd amp det, (exists p, make_pattern n wa wd amp det = Some p) <->
  (0 < n)%nat /\ forall k r, In (k, WNum r) (wa ++ wd) -> 0 <= r <= 1.
Proof.
  intros n wa wd amp det.
  assert (V : forall d, validate_weights d = true <-> forall k r, In (k, WNum r) d -> 0 <= r <= 1).
  { intros d. unfold validate_weights. rewrite forallb_forall. split.
    - intros H k r Hin. specialize (H _ Hin). simpl in H. destruct (Rle_dec 0 r); [|discriminate]. destruct (Rle_dec r 1); [lra|discriminate].
    - intros H [k [r|r]] Hin; simpl; [|reflexivity]. specialize (H k r Hin). destruct (Rle_dec 0 r); [|lra]. destruct (Rle_dec r 1); [reflexivity|lra]. }
  split.
  - intros [p H]. destruct (p_eq _ _ _ _ _ _ H) as (Va & Vd & Hn & _). split; [lia|]. intros k r Hin. apply in_app_iff in Hin as [Hin|Hin]; [apply (proj1 (V wa) Va k r Hin)|apply (proj1 (V wd) Vd k r Hin)].
  - intros [Hn H]. eexists. unfold make_pattern. rewrite (proj2 (V wa)), (proj2 (V wd)) by (intros k r Hin; apply (H k r), in_app_iff; auto). cbn [negb].
    assert (K : forall d, keys_ok n (constrain_weights n d) = true).
    { intros d. unfold keys_ok. assert (E : existsb (fun kv => Nat.leb n (fst kv)) (constrain_weights n d) = false).
      { destruct (existsb _ _) eqn:E; [|reflexivity]. apply existsb_exists in E as ([k x] & Hin & L). apply in_map_iff in Hin as (j & E & Hj). injection E as -> _. apply in_seq in Hj. apply Nat.leb_le in L. simpl in L. lia. }
      rewrite E. destruct (constrain_weights n d) eqn:E2; [|reflexivity]. unfold constrain_weights in E2. destruct n; [lia|discriminate E2]. }
    rewrite !K. reflexivity.
Qed.
(** Weights naming qubits that do not exist are accepted and dropped. *)
Theorem C42_unknown_qubit_refuted : exists n wa wd amp det p, (exists k w, In (k, WNum w) wa /\ (n <= k)%nat /\ 0 < w) /\ make_pattern n wa wd amp det = Some p.
Proof.
  destruct (proj2 (C42_accepted 2 [(5%nat, WNum (1 / 2))] [] 3 0)) as [p Hp].
  - split; [lia|]. intros k r [E|[]]. injection E as _ <-. lra.
  - exists 2%nat, [(5%nat, WNum (1 / 2))], [], 3, 0, p. split; [|exact Hp]. exists 5%nat, (1 / 2). split; [left; reflexivity|]. split; [lia|lra].
Qed.
(** The default amplitude with full weight is halved. *)
Theorem C42_full_weight_refuted : exists p, make_pattern 2 [(0%nat, WNum 1)] [] LOCAL_MAX_AMPLITUDE 0 = Some p /\ qubit_amp p 0 = Some (3 / 2).
Proof.
  destruct (proj2 (C42_accepted 2 [(0%nat, WNum 1)] [] LOCAL_MAX_AMPLITUDE 0)) as [p Hp].
  { split; [lia|]. intros k r [E|[]]. injection E as _ <-. lra. }
  exists p. split; [exact Hp|]. rewrite (amp_eq _ _ _ _ _ _ Hp 0 ltac:(lia)). f_equal. unfold cw, global_constraint. simpl.
  assert (E : constrain_amp LOCAL_MAX_AMPLITUDE = 3).
  { unfold constrain_amp, LOCAL_MAX_AMPLITUDE, GLOBAL_MAX_AMPLITUDE. destruct (heavi (3 + 300)) as [[? _]|[[? _]|[_ ->]]]; try lra. destruct (heavi (3 - 300)) as [[_ ->]|[[? _]|[? _]]]; try lra. rewrite Rabs_pos_eq; lra. }
  rewrite E. destruct (clip_factor (3 * 1) LOCAL_MAX_AMPLITUDE) as (_ & _ & F & _); [lra|unfold LOCAL_MAX_AMPLITUDE; lra|]. rewrite F by (unfold LOCAL_MAX_AMPLITUDE; lra).
  destruct (clip_factor (3 * (1 + (0 + 0))) GLOBAL_MAX_AMPLITUDE) as (_ & _ & _ & F2); [lra|unfold GLOBAL_MAX_AMPLITUDE; lra|]. rewrite F2 by (unfold GLOBAL_MAX_AMPLITUDE; lra). lra.
Qed.
Example C42_case : exists p, make_pattern 2 [(0%nat, WNum (1 / 2)); (1%nat, WPar (-4))] [(1%nat, WNum 1)] 5 (-10) = Some p.
Proof. apply C42_accepted. split; [lia|]. intros k r [E|[E|[E|[]]]]; try discriminate E; injection E as _ <-; lra. Qed.
Print Assumptions C42_weights.
Print Assumptions C42_local.
Print Assumptions C42_total.
Print Assumptions C42_inside.
Print Assumptions C42_accepted.
Print Assumptions C42_unknown_qubit_refuted.
Print Assumptions C42_full_weight_refuted.
