(** C46: square waveforms respect the device's limits. *)
From Coq Require Import Reals ZArith Lra Lia.
From Verif Require Import M_PSR P_PSR M_Readout P_Readout M_Waveforms.
Open Scope R_scope.

(** * Specification *)
(** The area under a square waveform: duration in ns, amplitude in rad/us. *)
Definition delivered (w : R * R) : R := fst w * snd w / 1000.
(** A duration on the device's clock. *)
Definition on_clock (steps d : R) : Prop := exists k : Z, d = steps * IZR k.

Lemma ceil_spec x : x <= np_ceil x < x + 1.
Proof. unfold np_ceil. destruct (base_Int_part (- x)). lra. Qed.
Lemma ceil_int x : exists k, np_ceil x = IZR k.
Proof. exists (- Int_part (- x))%Z. unfold np_ceil. rewrite opp_IZR. reflexivity. Qed.
Lemma ceil_le x k : x <= IZR k -> np_ceil x <= IZR k.
Proof.
  intros H. destruct (ceil_spec x) as [_ H2]. destruct (ceil_int x) as [m E]. rewrite E in *. apply IZR_le.
  assert (m < k + 1)%Z by (apply lt_IZR; rewrite plus_IZR; lra). lia.
Qed.

Section Area.
  Variables (area M s m : R).
  Hypothesis HA : 0 <= area.
  Hypothesis HM : 0 < M.
  Hypothesis Hs : 0 < s.
  Hypothesis Hm : 0 < m.
  Let d := first_duration area M s m.
  Let amp := Rmin (ceil_amplitude area (MAX_AMPLITUDE_SCALING * M) d) M.

  Lemma d_pos : 0 < d.
  Proof. unfold d, first_duration. pose proof (Rmax_r (s * IZR (rint (area / (s * M) * 1000))) m). lra. Qed.
  (** The clock-rounded duration is at most half a clock period short of what the maximal amplitude needs. *)
  Lemma d_low : area * 1000 <= (d + s / 2) * M.
  Proof.
    pose proof (Rmax_l (s * IZR (rint (area / (s * M) * 1000))) m) as H. fold (first_duration area M s m) in H. fold d in H.
    pose proof (rint_err (area / (s * M) * 1000)) as E. apply Rabs_between in E. set (k := IZR (rint (area / (s * M) * 1000))) in *.
    assert (E1 : area * 1000 = area / (s * M) * 1000 * (s * M)) by (field; lra). rewrite E1. set (x := area / (s * M) * 1000) in *.
    replace (x * (s * M)) with ((s * x) * M) by ring. apply Rmult_le_compat_r; [lra|].
    assert (s * x <= s * (k + 1 / 2)) by (apply Rmult_le_compat_l; lra). lra.
  Qed.
  Lemma ceil_amp_low e : 0 < e -> area * 1000 <= ceil_amplitude area (MAX_AMPLITUDE_SCALING * M) e * e < area * 1000 + MAX_AMPLITUDE_SCALING * M * e.
  Proof.
    intros He. unfold ceil_amplitude. unfold MAX_AMPLITUDE_SCALING. set (a := 1 / 10 * M). assert (Ha : 0 < a) by (unfold a; lra).
    destruct (ceil_spec (area / (a * e) * 1000)) as [H1 H2]. assert (E : area * 1000 = area / (a * e) * 1000 * (a * e)) by (field; lra). rewrite E.
    set (x := area / (a * e) * 1000) in *. assert (0 < a * e) by (apply Rmult_lt_0_compat; lra).
    replace (a * np_ceil x * e) with (np_ceil x * (a * e)) by ring. split.
    - apply Rmult_le_compat_r; lra.
    - replace (x * (a * e) + a * e) with ((x + 1) * (a * e)) by ring. apply Rmult_lt_compat_r; lra.
  Qed.
  (** When the duration suffices at the maximal amplitude, the quantised amplitude does not exceed it. *)
  Lemma ceil_amp_high e : 0 < e -> area * 1000 <= e * M -> ceil_amplitude area (MAX_AMPLITUDE_SCALING * M) e <= M.
  Proof.
    intros He H. unfold ceil_amplitude, MAX_AMPLITUDE_SCALING. assert (X : area / (1 / 10 * M * e) * 1000 <= IZR 10).
    { apply (Rmult_le_reg_r (1 / 10 * M * e)); [apply Rmult_lt_0_compat; lra|].
      replace (area / (1 / 10 * M * e) * 1000 * (1 / 10 * M * e)) with (area * 1000) by (field; lra). lra. }
    apply ceil_le in X. assert (1 / 10 * M * np_ceil (area / (1 / 10 * M * e) * 1000) <= 1 / 10 * M * 10) by (apply Rmult_le_compat_l; lra). lra.
  Qed.
  (** The first test of the loop fails: lengthening the pulse never helps. *)
  Lemma no_iteration : error area d amp <= error area (d + s) (Rmax (ceil_amplitude area (MAX_AMPLITUDE_SCALING * M) (d + s)) M).
  Proof.
    pose proof d_pos as Dp. pose proof d_low as Dl.
    assert (HN : ceil_amplitude area (MAX_AMPLITUDE_SCALING * M) (d + s) <= M).
    { apply ceil_amp_high; [lra|]. eapply Rle_trans; [exact Dl|]. apply Rmult_le_compat_r; lra. }
    rewrite Rmax_right by exact HN. unfold error.
    assert (P1 : area * 1000 <= (d + s / 2) * M) by exact Dl.
    assert (SM : 0 < s * M) by (apply Rmult_lt_0_compat; lra).
    rewrite (Rabs_pos_eq (1 / 1000 * (d + s) * M - area)) by lra.
    destruct (ceil_amp_low d Dp) as [C1 C2]. unfold amp.
    destruct (Rle_dec (ceil_amplitude area (MAX_AMPLITUDE_SCALING * M) d) M) as [L|L].
    - rewrite Rmin_left by exact L. set (c := ceil_amplitude area (MAX_AMPLITUDE_SCALING * M) d) in *.
      rewrite Rabs_pos_eq by lra. assert (c * d <= M * d) by (apply Rmult_le_compat_r; lra). lra.
    - rewrite Rmin_right by lra. destruct (Rle_dec (area * 1000) (d * M)) as [Q|Q].
      + exfalso. apply L. apply ceil_amp_high; assumption.
      + rewrite Rabs_left1 by lra. lra.
  Qed.
  Lemma from_area_eq fuel : from_area (S fuel) area M s m = Some (d, amp).
  Proof.
    unfold from_area. fold d. fold amp. cbn [loop]. destruct (Rlt_dec _ _) as [L|_]; [|reflexivity]. exfalso. pose proof no_iteration. lra.
  Qed.
  Lemma area_bounds : delivered (d, amp) < area + M / 10 * d / 1000 /\ area - s * M / 2 / 1000 <= delivered (d, amp).
  Proof.
    pose proof d_pos as Dp. pose proof d_low as Dl. destruct (ceil_amp_low d Dp) as [C1 C2]. unfold delivered, MAX_AMPLITUDE_SCALING in *. cbn [fst snd].
    unfold amp. unfold MAX_AMPLITUDE_SCALING. set (c := ceil_amplitude area (1 / 10 * M) d) in *.
    assert (SM : 0 < s * M) by (apply Rmult_lt_0_compat; lra).
    destruct (Rle_dec c M) as [L|L]; [rewrite Rmin_left by lra|rewrite Rmin_right by lra].
    - split; lra.
    - split; [|lra]. assert (M * d <= c * d) by (apply Rmult_le_compat_r; lra). lra.
  Qed.
End Area.

(** [from_area] terminates, keeps the amplitude between 0 and the maximum, respects the minimal duration, puts the duration
    on the clock, and delivers the area up to the resolution: half a clock period at full amplitude below, and a tenth of the
    maximal amplitude above. *)
Theorem C46_from_area : forall area max_amp steps min_duration, 0 <= area -> 0 < max_amp -> 0 < steps -> 0 < min_duration -> forall fuel,
  exists d a, from_area (S fuel) area max_amp steps min_duration = Some (d, a) /\
    0 <= a <= max_amp /\ min_duration <= d /\ (on_clock steps min_duration -> on_clock steps d) /\
    (d = min_duration \/ Rabs (d - area / max_amp * 1000) <= steps / 2) /\
    area - steps * max_amp / 2 / 1000 <= delivered (d, a) < area + max_amp / 10 * d / 1000.
Proof.
  intros area M s m HA HM Hs Hm fuel. exists (first_duration area M s m), (Rmin (ceil_amplitude area (MAX_AMPLITUDE_SCALING * M) (first_duration area M s m)) M).
  split; [apply from_area_eq; assumption|]. pose proof (d_pos area M s m Hm) as Dp. split.
  - split; [|apply Rmin_r]. apply Rmin_glb; [|lra]. destruct (ceil_amp_low area M HM _ Dp) as [C1 _].
    destruct (Rle_dec 0 (ceil_amplitude area (MAX_AMPLITUDE_SCALING * M) (first_duration area M s m))) as [P|P]; [exact P|exfalso].
    assert (ceil_amplitude area (MAX_AMPLITUDE_SCALING * M) (first_duration area M s m) * first_duration area M s m < 0 * first_duration area M s m) by (apply Rmult_lt_compat_r; lra). lra.
  - split; [apply Rmax_r|]. split; [|split].
    + intros H. unfold first_duration. apply Rmax_case; [eexists; reflexivity|exact H].
    + unfold first_duration. apply Rmax_case_strong; [intros _; right|left; reflexivity].
      pose proof (rint_err (area / (s * M) * 1000)) as E. apply Rabs_between in E. set (k := IZR (rint (area / (s * M) * 1000))) in *.
      assert (E1 : area / M * 1000 = s * (area / (s * M) * 1000)) by (field; lra). rewrite E1. set (x := area / (s * M) * 1000) in *.
      replace (s * k - s * x) with (s * (k - x)) by ring. rewrite Rabs_mult, (Rabs_pos_eq s) by lra.
      assert (Rabs (k - x) <= 1 / 2) by (apply Rabs_le; lra). assert (s * Rabs (k - x) <= s * (1 / 2)) by (apply Rmult_le_compat_l; lra). lra.
    + destruct (area_bounds area M s m HM Hs Hm). lra.
Qed.
(** The delivered area is not the requested one in general. *)
Theorem C46_area_refuted : exists area max_amp steps min_duration w, 0 < area /\ 0 < max_amp /\ 0 < steps /\ 0 < min_duration /\
  from_area 1 area max_amp steps min_duration = Some w /\ delivered w <> area.
Proof.
  exists (1 / 1000), 1, 1, 16. eexists. split; [lra|]. split; [lra|]. split; [lra|]. split; [lra|]. split; [apply from_area_eq; lra|].
  unfold delivered. cbn [fst snd]. assert (E : first_duration (1 / 1000) 1 1 16 = 16).
  { unfold first_duration. apply Rmax_right. rewrite (rint_near _ 1); [lra|]. rewrite Rabs_pos_eq; lra. }
  rewrite E. unfold ceil_amplitude, MAX_AMPLITUDE_SCALING.
  assert (C : np_ceil (1 / 1000 / (1 / 10 * 1 * 16) * 1000) = 1).
  { pose proof (ceil_spec (1 / 1000 / (1 / 10 * 1 * 16) * 1000)) as [H1 H2]. destruct (ceil_int (1 / 1000 / (1 / 10 * 1 * 16) * 1000)) as [k Ek]. rewrite Ek in *.
    assert (A : (0 < k)%Z) by (apply lt_IZR; lra). assert (B : (k < 2)%Z) by (apply lt_IZR; lra). replace k with 1%Z by lia. reflexivity. }
  rewrite C. rewrite Rmin_left by lra. lra.
Qed.
(** [from_duration] gives the requested duration rounded to the clock, and the full amplitude. *)
Theorem C46_from_duration : forall duration max_amp steps min_duration, max_amp = 0 \/ 1 / 10 ^ 10 <= max_amp -> 0 < steps ->
  let w := from_duration duration max_amp steps min_duration in
  snd w = max_amp /\ min_duration <= fst w /\ (on_clock steps min_duration -> on_clock steps (fst w)) /\
  (fst w = min_duration \/ Rabs (fst w - duration) <= steps / 2).
Proof.
  intros dur M s m HM Hs. unfold from_duration. cbn [fst snd]. split; [|split; [apply Rmax_r|split]].
  - destruct HM as [-> | HM]; [unfold MAX_AMPLITUDE_SCALING; rewrite Rmin_left; lra|]. apply Rmin_right. unfold MAX_AMPLITUDE_SCALING, EPS.
    destruct (ceil_spec (M / (1 / 10 * M + 1 / 10 ^ 9) * 1000)) as [H _]. assert (P : 0 < 1 / 10 ^ 9) by lra.
    assert (B : 10 <= M / (1 / 10 * M + 1 / 10 ^ 9) * 1000).
    { apply (Rmult_le_reg_r (1 / 10 * M + 1 / 10 ^ 9)); [lra|]. replace (M / (1 / 10 * M + 1 / 10 ^ 9) * 1000 * (1 / 10 * M + 1 / 10 ^ 9)) with (M * 1000) by (field; lra). lra. }
    assert (1 / 10 * M * 10 <= 1 / 10 * M * np_ceil (M / (1 / 10 * M + 1 / 10 ^ 9) * 1000)) by (apply Rmult_le_compat_l; lra). lra.
  - intros H. apply Rmax_case; [eexists; reflexivity|exact H].
  - apply Rmax_case_strong; [intros _; right|left; reflexivity]. pose proof (rint_err (dur / s)) as E. apply Rabs_between in E. set (k := IZR (rint (dur / s))) in *.
    assert (E1 : dur = s * (dur / s)) by (field; lra). set (x := dur / s) in *. rewrite E1.
    replace (s * k - s * x) with (s * (k - x)) by ring. rewrite Rabs_mult, (Rabs_pos_eq s) by lra.
    assert (Rabs (k - x) <= 1 / 2) by (apply Rabs_le; lra). assert (s * Rabs (k - x) <= s * (1 / 2)) by (apply Rmult_le_compat_l; lra). lra.
Qed.
(** A negative value (a negative detuning) is multiplied by about a thousand. *)
Theorem C46_negative_refuted : exists duration max_amp steps min_duration, 0 < duration /\ 0 < steps /\ max_amp < 0 /\
  snd (from_duration duration max_amp steps min_duration) <= 1000 * max_amp.
Proof.
  exists 100, (-1), 1, 1. split; [lra|]. split; [lra|]. split; [lra|]. unfold from_duration. cbn [snd]. eapply Rle_trans; [apply Rmin_l|]. unfold MAX_AMPLITUDE_SCALING, EPS.
  destruct (ceil_spec ((-1) / (1 / 10 * -1 + 1 / 10 ^ 9) * 1000)) as [H _].
  assert (B : 10000 <= (-1) / (1 / 10 * -1 + 1 / 10 ^ 9) * 1000).
  { replace ((-1) / (1 / 10 * -1 + 1 / 10 ^ 9) * 1000) with (1 / (1 / 10 - 1 / 10 ^ 9) * 1000) by (field; lra). apply (Rmult_le_reg_r (1 / 10 - 1 / 10 ^ 9)); [lra|].
    replace (1 / (1 / 10 - 1 / 10 ^ 9) * 1000 * (1 / 10 - 1 / 10 ^ 9)) with 1000 by (field; lra). lra. }
  lra.
Qed.
Example C46_case : exists d a, from_area 1 (PI / 2) 15 4 16 = Some (d, a) /\ a <= 15 /\ on_clock 4 d.
Proof.
  pose proof PI_RGT_0. destruct (C46_from_area (PI / 2) 15 4 16 ltac:(lra) ltac:(lra) ltac:(lra) ltac:(lra) 0) as (d & a & H1 & [_ H2] & _ & H3 & _).
  exists d, a. split; [exact H1|]. split; [exact H2|]. apply H3. exists 4%Z. lra.
Qed.
Print Assumptions C46_from_area.
Print Assumptions C46_area_refuted.
Print Assumptions C46_from_duration.
Print Assumptions C46_negative_refuted.
