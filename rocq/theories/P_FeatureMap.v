(** C26: feature maps scale the feature range onto the target range and encode it on every qubit. *)
From Coq Require Import Reals List Arith Bool Ratan Lra Lia.
From Verif Require Import M_FeatureMap.
Import ListNotations.
Open Scope R_scope.

(** Specification: the increasing affine map from the interval [a,b] onto [c,d]. *)
Definition affine (a b c d x : R) : R := c + (x - a) / (b - a) * (d - c).
Definition lo (p : R * R) : R := Rmin (fst p) (snd p).
Definition hi (p : R * R) : R := Rmax (fst p) (snd p).
(** The range used: the given one or the default of the basis set. *)
Definition range_or (fm : fm_type) (r : option (R * R)) : R * R :=
  match r with Some p => p | None => match fm with FOURIER => (0, 2 * PI) | CHEBYSHEV => (-1, 1) | Custom _ => (0, 1) end end.
Lemma range_or_eq fm r : range_or fm r = match r with None => set_range fm | Some p => p end.
Proof. destruct r, fm; reflexivity. Qed.

Lemma lohi p : lo p <= hi p. Proof. unfold lo, hi. apply Rle_trans with (fst p); [apply Rmin_l|apply Rmax_l]. Qed.
Lemma isclose_exact s : isclose_one s = false \/ isclose_one s = true. Proof. destruct (isclose_one s); auto. Qed.

(** The affine map is applied up to a relative error of 1e-9 of the feature value; exactly when the scaling factor is one
    or further than 1e-9 from one. *)
Theorem C26_scaling : forall fm fr tr x, let F := range_or fm fr in let T := range_or fm tr in lo F <> hi F ->
  let s := (hi T - lo T) / (hi F - lo F) in
  exists v, fm_parameter_scaling fm fr tr x = Some v /\
    Rabs (v - affine (lo F) (hi F) (lo T) (hi T) x) <= 1 / 1000000000 * Rmax (Rabs s) 1 * Rabs x /\
    (s = 1 \/ 1 / 1000000000 * Rmax (Rabs s) 1 < Rabs (s - 1) -> v = affine (lo F) (hi F) (lo T) (hi T) x).
Proof.
  intros fm fr tr x F T Hne s. unfold fm_parameter_scaling. rewrite <- !range_or_eq. fold F T. unfold pmin, pmax. fold (lo F) (hi F) (lo T) (hi T).
  pose proof (lohi F). destruct (Req_EM_T (hi F - lo F) 0) as [E|_]; [lra|]. eexists. split; [reflexivity|]. fold s.
  assert (A : affine (lo F) (hi F) (lo T) (hi T) x = s * x + (lo T - lo F * s)) by (unfold affine, s; field; lra).
  rewrite A. unfold isclose_one. rewrite Rabs_R1. destruct (Rle_dec (Rabs (s - 1)) (1 / 1000000000 * Rmax (Rabs s) 1)) as [L|L].
  - replace (x + (lo T - lo F * s) - (s * x + (lo T - lo F * s))) with ((s - 1) * - x) by ring. rewrite Rabs_mult, Rabs_Ropp. split.
    + apply Rmult_le_compat_r; [apply Rabs_pos|exact L].
    + intros [->|C]; [ring|lra].
  - replace (s * x + (lo T - lo F * s) - (s * x + (lo T - lo F * s))) with 0 by ring. rewrite Rabs_R0. split; [|reflexivity].
    assert (P := Rmax_r (Rabs s) 1). assert (Q := Rabs_pos x). apply Rmult_le_pos; [lra|exact Q].
Qed.
(** End points go to end points and the range into the range. *)
Theorem C26_range : forall a b c d x, a < b -> c <= d -> a <= x <= b ->
  c <= affine a b c d x <= d /\ affine a b c d a = c /\ affine a b c d b = d.
Proof.
  intros a b c d x Hab Hcd [H1 H2]. unfold affine.
  assert (0 <= (x - a) / (b - a) <= 1).
  { split; [apply Rmult_le_pos; [lra|left; apply Rinv_0_lt_compat; lra]|]. apply Rmult_le_reg_r with (b - a); [lra|]. unfold Rdiv. rewrite Rmult_assoc, Rinv_l by lra. lra. }
  split; [split; nra|]. split; field; lra.
Qed.
(** Only an empty feature range is refused. *)
Theorem C26_empty_range : forall fm fr tr x, fm_parameter_scaling fm fr tr x = None <-> lo (range_or fm fr) = hi (range_or fm fr).
Proof.
  intros. unfold fm_parameter_scaling. rewrite <- !range_or_eq. unfold pmin, pmax. fold (lo (range_or fm fr)) (hi (range_or fm fr)).
  destruct (Req_EM_T _ 0) as [E|E]; split; intro H; try discriminate; try reflexivity; lra.
Qed.

(** One rotation per qubit of the support, in order, with angle  multiplier * scaling(i) * transform(scaled feature). *)
Theorem C26_gates : forall n support fm rs fr tr m w x gates,
  feature_map n support fm rs fr tr m w x = Some gates ->
  exists s v, (support = None -> s = seq 0 n) /\ (forall l, support = Some l -> s = l) /\ length s = n /\
    fm_parameter_scaling fm fr tr x = Some v /\ map fst gates = s /\
    forall i, (i < n)%nat -> nth_error gates i = Some (nth i s 0%nat,
      match m with None => 1 | Some k => k end * (match rs with CONSTANT => 1 | TOWER => INR i + 1 | EXP => 2 ^ i | CustomScaling f => f i end) *
      (match fm with FOURIER => fun y => y | CHEBYSHEV => acos | Custom f => f end) (match w with None => v | Some w => w i * v end)).
Proof.
  intros n support fm rs fr tr m w x gates H. unfold feature_map in H.
  destruct (match support with None => Some (seq 0 n) | Some s => if Nat.eqb (length s) n then Some s else None end) as [s|] eqn:Es; [|discriminate].
  destruct (fm_parameter_scaling fm fr tr x) as [v|]; [|discriminate]. injection H as <-. exists s, v.
  assert (Ls : length s = n).
  { destruct support as [l|]; [|injection Es as <-; apply seq_length]. destruct (Nat.eqb (length l) n) eqn:E; [|discriminate]. injection Es as <-. apply Nat.eqb_eq, E. }
  split; [intros ->; congruence|]. split; [intros l ->; destruct (Nat.eqb (length l) n); congruence|]. split; [exact Ls|]. split; [reflexivity|]. split.
  - rewrite map_map. clear. generalize 0%nat. induction s as [|q s IH]; intro k; simpl; [reflexivity|]. f_equal. apply (IH (S k)).
  - intros i Hi. rewrite nth_error_map.
    assert (E : nth_error (combine (seq 0 (length s)) s) i = Some (i, nth i s 0%nat)).
    { assert (L : (i < length (combine (seq 0 (length s)) s))%nat) by (rewrite combine_length, seq_length; lia).
      rewrite (nth_error_nth' _ (0%nat, 0%nat) L). f_equal. rewrite combine_nth by apply seq_length. rewrite seq_nth by lia. reflexivity. }
    rewrite E. simpl. f_equal. f_equal. destruct rs; simpl; rewrite ?plus_INR; simpl; destruct fm; reflexivity.
Qed.

(** Default Fourier encoding leaves the feature unchanged, on every qubit. *)
Theorem C26_fourier_default : forall n x, feature_map n None FOURIER CONSTANT None None None None x = Some (map (fun q => (q, x)) (seq 0 n)).
Proof.
  intros n x. unfold feature_map.
  assert (E : fm_parameter_scaling FOURIER None None x = Some x).
  { destruct (C26_scaling FOURIER None None x) as (v & E & _ & H).
    - unfold lo, hi; simpl. pose proof PI_RGT_0. rewrite Rmin_left, Rmax_right; lra.
    - rewrite E. f_equal. rewrite H.
      + unfold affine, lo, hi; simpl. pose proof PI_RGT_0. rewrite Rmin_left, Rmax_right by lra. field. lra.
      + left. unfold lo, hi; simpl. pose proof PI_RGT_0. rewrite Rmin_left, Rmax_right by lra. field. lra. }
  rewrite E. f_equal. rewrite seq_length.
  assert (G : forall k m, map (fun iq : nat * nat => let '(i, qubit) := iq in (qubit, 1 * rs_func CONSTANT i * fm_parameter_func FOURIER x)) (combine (seq k m) (seq k m)) = map (fun q => (q, x)) (seq k m)).
  { intros k m. revert k. induction m as [|m IH]; intro k; simpl; [reflexivity|]. rewrite IH. f_equal. f_equal. ring. }
  apply G.
Qed.

(** Chebyshev tower: the cosine of the angle on the i-th qubit is the Chebyshev polynomial of degree i+1 of the scaled feature. *)
Fixpoint cheb2 (k : nat) (x : R) : R * R :=   (* (T_k, T_(k+1)) *)
  match k with O => (1, x) | S j => let '(a, b) := cheb2 j x in (b, 2 * x * b - a) end.
Definition chebyshev (k : nat) (x : R) : R := fst (cheb2 k x).
Lemma cheb_cos k x : -1 <= x <= 1 -> cheb2 k x = (cos (INR k * acos x), cos (INR (S k) * acos x)).
Proof.
  intros Hx. pose proof (cos_acos x Hx) as C. induction k as [|k IH].
  - simpl. rewrite Rmult_0_l, cos_0, Rmult_1_l, C. reflexivity.
  - change (cheb2 (S k) x) with (let '(a, b) := cheb2 k x in (b, 2 * x * b - a)). rewrite IH. f_equal.
    rewrite (S_INR (S k)), (S_INR k). set (t := acos x) in *. set (m := INR k).
    replace ((m + 1 + 1) * t) with ((m + 1) * t + t) by ring. replace (m * t) with ((m + 1) * t - t) by ring. rewrite cos_plus, cos_minus, C. ring.
Qed.
Theorem C26_chebyshev_tower : forall n fr tr x gates i,
  feature_map n None CHEBYSHEV TOWER fr tr None None x = Some gates -> (i < n)%nat ->
  exists v theta, fm_parameter_scaling CHEBYSHEV fr tr x = Some v /\ nth_error gates i = Some (i, theta) /\
    (-1 <= v <= 1 -> cos theta = chebyshev (S i) v).
Proof.
  intros n fr tr x gates i H Hi. destruct (C26_gates _ _ _ _ _ _ _ _ _ _ H) as (s & v & H1 & _ & _ & H4 & _ & H6).
  specialize (H6 i Hi). rewrite (H1 eq_refl), seq_nth in H6 by exact Hi. exists v. eexists. split; [exact H4|]. split; [exact H6|].
  intros Hv. unfold chebyshev. rewrite cheb_cos by exact Hv. cbn [fst]. f_equal. rewrite S_INR. ring.
Qed.
(** With the default target range, a feature inside the feature range reaches the Chebyshev domain: a scaled feature outside
    [-1,1] can only come from the 1e-9 tolerance. *)
Theorem C26_chebyshev_domain : forall fr x v, let F := range_or CHEBYSHEV fr in
  let s := 2 / (hi F - lo F) in s = 1 \/ 1 / 1000000000 * Rmax (Rabs s) 1 < Rabs (s - 1) ->
  lo F < hi F -> lo F <= x <= hi F -> fm_parameter_scaling CHEBYSHEV fr None x = Some v -> -1 <= v <= 1.
Proof.
  intros fr x v F s Hs HF Hx H. destruct (C26_scaling CHEBYSHEV fr None x) as (v' & E & _ & A); [fold F; lra|]. rewrite H in E. injection E as <-.
  fold F in A. assert (L : lo (range_or CHEBYSHEV None) = -1 /\ hi (range_or CHEBYSHEV None) = 1) by (unfold lo, hi; simpl; rewrite Rmin_left, Rmax_right by lra; split; reflexivity).
  destruct L as [L1 L2]. rewrite L1, L2 in A. replace (1 - -1) with 2 in A by ring. rewrite (A Hs). apply C26_range; [exact HF|lra|exact Hx].
Qed.

Lemma PI_upper : PI <= 13 / 4.
Proof.
  destruct (PI_2_3_7_ineq 0) as [_ H]. simpl in H. unfold tg_alt, PI_2_3_7_tg, Ratan_seq in H. simpl in H. lra.
Qed.
Lemma PI_lower : 3 < PI.
Proof. pose proof PI2_3_2. lra. Qed.
Lemma exp_not_close n : 1 / 1000000000 * Rmax (Rabs (2 * PI / 2 ^ n)) 1 < Rabs (2 * PI / 2 ^ n - 1).
Proof.
  pose proof PI_upper. pose proof PI_lower. assert (P2 : 0 < 2 ^ n) by (apply pow_lt; lra).
  destruct (le_lt_dec n 2) as [L|L].
  - assert (B : 2 ^ n <= 4) by (destruct n as [|[|[|n]]]; simpl; lra || lia). set (s := 2 * PI / 2 ^ n).
    assert (S : 3 / 2 <= s). { unfold s. apply Rmult_le_reg_r with (2 ^ n); [exact P2|]. unfold Rdiv at 2. rewrite (Rmult_assoc (2 * PI)), Rinv_l by lra. lra. }
    rewrite (Rabs_pos_eq s) by lra. rewrite Rmax_left by lra. rewrite Rabs_pos_eq by lra. lra.
  - assert (B : 8 <= 2 ^ n). { replace n with (3 + (n - 3))%nat by lia. rewrite pow_add. pose proof (pow_R1_Rle 2 (n - 3) ltac:(lra)). simpl (2 ^ 3). lra. }
    set (s := 2 * PI / 2 ^ n).
    assert (S : 0 < s <= 13 / 16). { unfold s. split; [apply Rdiv_lt_0_compat; lra|]. apply Rmult_le_reg_r with (2 ^ n); [exact P2|]. unfold Rdiv at 1. rewrite (Rmult_assoc (2 * PI)), Rinv_l by lra. lra. }
    rewrite (Rabs_pos_eq s) by lra. rewrite Rmax_right by lra. rewrite Rabs_left by lra. lra.
Qed.
(** Exponential Fourier map: angle 2 pi x 2^i / 2^n on the i-th qubit, for the default range. *)
Theorem C26_exp_fourier : forall n x i, (i < n)%nat ->
  exists gates, exp_fourier_layer n None None x = Some gates /\ nth_error gates i = Some (i, 2 ^ i * (2 * PI * x / 2 ^ n)).
Proof.
  intros n x i Hi. pose proof (exp_not_close n) as Hs. unfold exp_fourier_layer. assert (P2 : 0 < 2 ^ n) by (apply pow_lt; lra). pose proof PI_RGT_0 as HP.
  destruct (C26_scaling FOURIER (Some (0, 2 ^ n)) (Some (0, 2 * PI)) x) as (v & E & _ & A).
  { unfold lo, hi; simpl. rewrite Rmin_left, Rmax_right by lra. lra. }
  unfold lo, hi in A. simpl in A. rewrite !Rmin_left, !Rmax_right, !Rminus_0_r in A by lra. specialize (A (or_intror Hs)).
  destruct (feature_map n (Some (seq 0 n)) FOURIER EXP (Some (0, 2 ^ n)) (Some (0, 2 * PI)) None None x) as [g|] eqn:EG.
  2:{ unfold feature_map in EG. rewrite seq_length, Nat.eqb_refl, E in EG. discriminate. }
  exists g. split; [reflexivity|]. destruct (C26_gates _ _ _ _ _ _ _ _ _ _ EG) as (s & v' & _ & H2 & _ & H4 & _ & H6).
  specialize (H6 i Hi). rewrite (H2 _ eq_refl), seq_nth in H6 by exact Hi. rewrite E in H4. injection H4 as <-. rewrite H6. f_equal. f_equal.
  rewrite A. unfold affine. rewrite !Rminus_0_r. field. lra.
Qed.

(** A concrete case: the feature range [0,4] onto the Chebyshev range. *)
Example C26_case : fm_parameter_scaling CHEBYSHEV (Some (0, 4)) None 3 = Some (1 / 2) /\ cos (acos (1 / 2)) = chebyshev 1 (1 / 2).
Proof.
  split.
  - destruct (C26_scaling CHEBYSHEV (Some (0, 4)) None 3) as (v & E & _ & A).
    + unfold lo, hi; simpl. rewrite Rmin_left, Rmax_right; lra.
    + rewrite E. f_equal. unfold lo, hi in A. simpl in A. rewrite !Rmin_left, !Rmax_right in A by lra. rewrite A; [unfold affine; field|].
      right. replace ((1 - -1) / (4 - 0)) with (1 / 2) by field. rewrite (Rabs_pos_eq (1 / 2)) by lra. rewrite Rmax_right by lra. rewrite Rabs_left; lra.
  - unfold chebyshev. simpl. apply cos_acos. lra.
Qed.
(** A scaling factor within 1e-9 of one is dropped, so the end of the feature range can miss the end of the target range. *)
Theorem C26_end_point_refuted : exists fr tr v, lo fr < hi fr /\ fm_parameter_scaling FOURIER (Some fr) (Some tr) (hi fr) = Some v /\ v <> hi tr.
Proof.
  exists (0, 1), (0, 1 + 1 / 2000000000). eexists. split; [unfold lo, hi; simpl; rewrite Rmin_left, Rmax_right; lra|].
  unfold fm_parameter_scaling. unfold pmin, pmax, hi. simpl. rewrite !Rmin_left, !Rmax_right by lra.
  destruct (Req_EM_T (1 - 0) 0); [lra|]. unfold isclose_one. destruct (Rle_dec _ _) as [L|L].
  - split; [reflexivity|]. lra.
  - exfalso. apply L. replace ((1 + 1 / 2000000000 - 0) / (1 - 0) - 1) with (1 / 2000000000) by field. rewrite (Rabs_pos_eq (1 / 2000000000)) by lra. rewrite Rabs_R1.
    apply Rle_trans with (1 / 1000000000 * 1); [lra|]. apply Rmult_le_compat_l; [lra|apply Rmax_r].
Qed.
Print Assumptions C26_scaling.
Print Assumptions C26_range.
Print Assumptions C26_empty_range.
Print Assumptions C26_gates.
Print Assumptions C26_fourier_default.
Print Assumptions C26_chebyshev_tower.
Print Assumptions C26_chebyshev_domain.
Print Assumptions C26_exp_fourier.
Print Assumptions C26_end_point_refuted.
