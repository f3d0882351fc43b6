(** The matrix exponential series converges; closed forms for diagonal matrices and involutions. *)
From Coq Require Import String Reals List Arith Bool Lia Lra FunctionalExtensionality.
From Coquelicot Require Import Coquelicot.
From Coq Require Import List.
From Verif Require Import S_Ops M_Block S_Den L_Ops L_Den L_Loc L_Adj.
Import ListNotations.
Open Scope R_scope.
Open Scope C_scope.

Lemma Cmod_csum {A} (f : A -> C) l : (Cmod (csum f l) <= fold_right (fun a s => Cmod (f a) + s) 0 l)%R.
Proof.
  induction l as [|a l IH]; simpl; [rewrite Cmod_0; lra|].
  eapply Rle_trans; [apply Cmod_triangle|]. lra.
Qed.

Lemma fold_le {A} (f : A -> R) l m : (forall a, In a l -> (f a <= m)%R) ->
  (fold_right (fun a s => f a + s) 0 l <= INR (length l) * m)%R.
Proof.
  induction l as [|a l IH]; intros H; [simpl; lra|].
  cbn [fold_right length]. rewrite S_INR. pose proof (H a (or_introl eq_refl)).
  assert ((fold_right (fun a s => f a + s) 0 l <= INR (length l) * m)%R) by (apply IH; intros; apply H; right; assumption). lra.
Qed.

Lemma list_bound {A} (f : A -> R) l : exists m, (0 <= m)%R /\ forall a, In a l -> (f a <= m)%R.
Proof.
  induction l as [|a l (m & H0 & H)]; [exists 0%R; split; [lra|intros ? []]|].
  exists (Rmax m (f a)). split; [eapply Rle_trans; [exact H0|apply Rmax_l]|].
  intros b [<-|Hb]; [apply Rmax_r|]. eapply Rle_trans; [apply H, Hb|apply Rmax_l].
Qed.

Lemma bmat_bound n (A : bmat) : exists m, (0 <= m)%R /\
  forall r c, length r = n -> length c = n -> (Cmod (A r c) <= m)%R.
Proof.
  destruct (list_bound (fun p => Cmod (A (fst p) (snd p))) (list_prod (bits n) (bits n))) as (m & H0 & H).
  exists m. split; [exact H0|]. intros r c Hr Hc. apply (H (r, c)).
  apply in_prod; apply in_bits_iff; assumption.
Qed.

Lemma bpow_bound n A m : (0 <= m)%R -> (forall r c, length r = n -> length c = n -> (Cmod (A r c) <= m)%R) ->
  forall k r c, length r = n -> length c = n -> (Cmod (bpow n A k r c) <= (INR (length (bits n)) * m) ^ k)%R.
Proof.
  intros H0 H. induction k as [|k IH]; intros r c Hr Hc; cbn [bpow pow].
  - destruct (eqbits r c); [rewrite Cmod_1|rewrite Cmod_0]; lra.
  - eapply Rle_trans; [apply Cmod_csum|].
    rewrite Rmult_assoc. apply fold_le. intros z Hz. apply bits_length in Hz. rewrite Cmod_mult.
    apply Rmult_le_compat; try apply Cmod_ge_0; [apply H; assumption|apply IH; assumption].
Qed.

Lemma fst_le_Cmod (z : C) : (Rabs (fst z) <= Cmod z)%R.
Proof.
  unfold Cmod. rewrite <- sqrt_Rsqr_abs. apply sqrt_le_1_alt. unfold Rsqr. pose proof (pow2_ge_0 (snd z)). simpl in *. lra.
Qed.
Lemma snd_le_Cmod (z : C) : (Rabs (snd z) <= Cmod z)%R.
Proof.
  unfold Cmod. rewrite <- sqrt_Rsqr_abs. apply sqrt_le_1_alt. unfold Rsqr. pose proof (pow2_ge_0 (fst z)). simpl in *. lra.
Qed.

Lemma ex_series_exp x : ex_series (fun k => x ^ k / INR (fact k))%R.
Proof.
  exists (exp x). pose proof (is_exp_Reals x) as H. unfold is_pseries in H.
  eapply is_series_ext; [|exact H]. intros n. unfold scal; simpl. unfold mult; simpl.
  rewrite pow_n_pow. unfold Rdiv. ring.
Qed.

Lemma ex_bounded (f : nat -> R) x : (forall k, (Rabs (f k) <= x ^ k)%R) -> ex_series (fun k => f k / INR (fact k))%R.
Proof.
  intros H. apply (ex_series_le (K := R_AbsRing) (V := R_CompleteNormedModule)) with (b := fun k => (x ^ k / INR (fact k))%R).
  - intros k. unfold norm; simpl. unfold abs; simpl. unfold Rdiv. rewrite Rabs_mult.
    rewrite (Rabs_pos_eq (/ _)).
    + apply Rmult_le_compat_r; [|apply H]. apply Rlt_le, Rinv_0_lt_compat, INR_fact_lt_0.
    + apply Rlt_le, Rinv_0_lt_compat, INR_fact_lt_0.
  - apply ex_series_exp.
Qed.

(** The exponential series converges absolutely entry by entry, for every matrix. *)
Theorem bexp_converges n A r c : length r = n -> length c = n ->
  is_series (fun k => fst (bpow n A k r c) / INR (fact k))%R (fst (bexp n A r c)) /\
  is_series (fun k => snd (bpow n A k r c) / INR (fact k))%R (snd (bexp n A r c)).
Proof.
  intros Hr Hc. destruct (bmat_bound n A) as (m & H0 & H).
  pose proof (bpow_bound n A m H0 H) as HB.
  split; apply Series_correct; apply (ex_bounded _ (INR (length (bits n)) * m)%R); intros k;
    (eapply Rle_trans; [|apply HB; [exact Hr|exact Hc]]); [apply fst_le_Cmod|apply snd_le_Cmod].
Qed.

Ltac rring := match goal with |- ?a = ?b => change (@eq R a b) end; simpl; unfold Rdiv; ring.
Lemma is_series_zero : is_series (fun _ : nat => 0%R) 0%R.
Proof.
  destruct (ex_series_exp 0) as [l Hl]. pose proof (is_series_scal 0%R _ _ Hl) as H.
  change (is_series (fun n => (0 * (0 ^ n / INR (fact n)))%R) (0 * l)%R) in H.
  rewrite Rmult_0_l in H. eapply is_series_ext; [|exact H]. intros k. apply Rmult_0_l.
Qed.

Lemma ps (a : nat -> R) (x l : R) : is_pseries a x l <-> is_series (fun k => a k * x ^ k)%R l.
Proof.
  assert (E : forall k, scal (pow_n x k) (a k) = (a k * x ^ k)%R).
  { intros k. unfold scal; simpl; unfold mult; simpl. rewrite Rmult_comm. reflexivity. }
  unfold is_pseries. split; apply is_series_ext; intros k; [apply E|symmetry; apply E].
Qed.

(** * Scalar exponential of i*theta *)
Definition itpow (t : R) (k : nat) : C := cpow (RtoC t * Ci) k.
Lemma cpow_ct (t : R) k : itpow t k =
  (t ^ k * match Nat.modulo k 4 with O => 1 | 2%nat => -1 | _ => 0 end,
   t ^ k * match Nat.modulo k 4 with 1%nat => 1 | 3%nat => -1 | _ => 0 end)%R.
Proof.
  induction k as [|k IH]; [simpl; apply Ceq; simpl; ring|].
  unfold itpow in *. cbn [cpow]. rewrite IH.
  assert (E : (S k mod 4 = (S (k mod 4)) mod 4)%nat).
  { rewrite <- Nat.add_1_r, <- (Nat.add_1_r (k mod 4)). rewrite <- Nat.add_mod_idemp_l by lia. reflexivity. }
  rewrite E. pose proof (Nat.mod_upper_bound k 4 ltac:(lia)) as Hk.
  destruct (k mod 4)%nat as [|[|[|[|j]]]]; simpl; try lia; apply Ceq; simpl; ring.
Qed.

Lemma is_series_cos t : is_series (fun k => fst (itpow t k) / INR (fact k))%R (cos t).
Proof.
  assert (HC : is_pseries (fun n => match Nat.modulo (2 * n) 4 with O => 1 | 2%nat => -1 | _ => 0 end / INR (fact (2 * n)))%R (t ^ 2)%R (cos t)).
  { unfold cos. destruct (exist_cos (Rsqr t)) as [l Hl]. unfold cos_in in Hl. apply is_series_Reals in Hl.
    apply ps. eapply is_series_ext; [|exact Hl].
    intros n. unfold cos_n. replace (t ^ 2)%R with (Rsqr t) by (unfold Rsqr; ring). f_equal. unfold Rdiv. f_equal.
    replace 4%nat with (2 * 2)%nat by reflexivity. rewrite Nat.mul_mod_distr_l by lia.
    destruct (Nat.even n) eqn:En.
    - apply Nat.even_spec in En. destruct En as [m ->]. rewrite pow_1_even.
      replace (2 * m mod 2)%nat with 0%nat by (rewrite Nat.mul_comm, Nat.mod_mul; lia). reflexivity.
    - assert (Nat.odd n = true) as On by (rewrite <- Nat.negb_even, En; reflexivity).
      apply Nat.odd_spec in On. destruct On as [m ->].
      replace (2 * m + 1)%nat with (S (2 * m)) by lia. rewrite pow_1_odd.
      replace (S (2 * m) mod 2)%nat with 1%nat; [reflexivity|].
      replace (S (2 * m)) with (1 + m * 2)%nat by lia. rewrite Nat.mod_add by lia. reflexivity. }
  assert (HO : is_pseries (fun n => match Nat.modulo (2 * n + 1) 4 with O => 1 | 2%nat => -1 | _ => 0 end / INR (fact (2 * n + 1)))%R (t ^ 2)%R 0).
  { apply ps. eapply is_series_ext; [|exact is_series_zero].
    intros n. assert (E : (Nat.modulo (2 * n + 1) 4 = 1 \/ Nat.modulo (2 * n + 1) 4 = 3)%nat).
    { pose proof (Nat.div_mod n 2 ltac:(lia)) as D. pose proof (Nat.mod_upper_bound n 2 ltac:(lia)) as U.
      destruct (n mod 2)%nat as [|[|]] eqn:En; try lia.
      - left. replace (2 * n + 1)%nat with (1 + (n / 2) * 4)%nat by lia. rewrite Nat.mod_add by lia. reflexivity.
      - right. replace (2 * n + 1)%nat with (3 + (n / 2) * 4)%nat by lia. rewrite Nat.mod_add by lia. reflexivity. }
    destruct E as [-> | ->]; rring. }
  pose proof (is_pseries_odd_even (fun n => match Nat.modulo n 4 with O => 1 | 2%nat => -1 | _ => 0 end / INR (fact n))%R t _ _ HC HO) as HP.
  rewrite Rmult_0_r, Rplus_0_r in HP. apply ps in HP. eapply is_series_ext; [|exact HP].
  intros n. rewrite cpow_ct. cbn [fst snd]. rring.
Qed.

Lemma is_series_sin t : is_series (fun k => snd (itpow t k) / INR (fact k))%R (sin t).
Proof.
  unfold sin. destruct (exist_sin (Rsqr t)) as [l Hl]. unfold sin_in in Hl. apply is_series_Reals in Hl.
  assert (HO : is_pseries (fun n => match Nat.modulo (2 * n + 1) 4 with 1%nat => 1 | 3%nat => -1 | _ => 0 end / INR (fact (2 * n + 1)))%R (t ^ 2)%R l).
  { apply ps. eapply is_series_ext; [|exact Hl].
    intros n. unfold sin_n. replace (t ^ 2)%R with (Rsqr t) by (unfold Rsqr; ring). f_equal. unfold Rdiv. f_equal.
    pose proof (Nat.div_mod n 2 ltac:(lia)) as D. pose proof (Nat.mod_upper_bound n 2 ltac:(lia)) as U.
    destruct (n mod 2)%nat as [|[|]] eqn:En; try lia.
    - replace (2 * n + 1)%nat with (1 + (n / 2) * 4)%nat by lia. rewrite Nat.mod_add by lia.
      replace n with (2 * (n / 2))%nat at 1 by lia. rewrite pow_1_even. reflexivity.
    - replace (2 * n + 1)%nat with (3 + (n / 2) * 4)%nat by lia. rewrite Nat.mod_add by lia.
      replace n with (S (2 * (n / 2)))%nat at 1 by lia. rewrite pow_1_odd. reflexivity. }
  assert (HC : is_pseries (fun n => match Nat.modulo (2 * n) 4 with 1%nat => 1 | 3%nat => -1 | _ => 0 end / INR (fact (2 * n)))%R (t ^ 2)%R 0).
  { apply ps. eapply is_series_ext; [|exact is_series_zero].
    intros n. assert (E : (Nat.modulo (2 * n) 4 = 0 \/ Nat.modulo (2 * n) 4 = 2)%nat).
    { pose proof (Nat.div_mod n 2 ltac:(lia)) as D. pose proof (Nat.mod_upper_bound n 2 ltac:(lia)) as U.
      destruct (n mod 2)%nat as [|[|]] eqn:En; try lia.
      - left. replace (2 * n)%nat with (0 + (n / 2) * 4)%nat by lia. rewrite Nat.mod_add by lia. reflexivity.
      - right. replace (2 * n)%nat with (2 + (n / 2) * 4)%nat by lia. rewrite Nat.mod_add by lia. reflexivity. }
    destruct E as [-> | ->]; rring. }
  pose proof (is_pseries_odd_even (fun n => match Nat.modulo n 4 with 1%nat => 1 | 3%nat => -1 | _ => 0 end / INR (fact n))%R t _ _ HC HO) as HP.
  rewrite Rplus_0_l in HP. apply ps in HP. eapply is_series_ext; [|exact HP].
  intros n. rewrite cpow_ct. cbn [fst snd]. rring.
Qed.

(** ** Diagonal matrices *)
Lemma bpow_diag n (d : list bool -> C) A : 
  (forall r c, length r = n -> length c = n -> A r c = if eqbits r c then d r else RtoC 0) ->
  forall k r c, length r = n -> length c = n -> bpow n A k r c = if eqbits r c then cpow (d r) k else RtoC 0.
Proof.
  intros H. induction k as [|k IH]; intros r c Hr Hc; cbn [bpow cpow]; [reflexivity|].
  rewrite (csum_single _ _ r).
  - rewrite H, IH, eqbits_refl by assumption. destruct (eqbits r c); [reflexivity|ring].
  - apply bits_nodup.
  - apply in_bits_iff; exact Hr.
  - intros z Hz Hne. apply bits_length in Hz. rewrite H by assumption.
    destruct (eqbits r z) eqn:E; [apply eqbits_true in E; congruence|ring].
Qed.

Lemma bexp_diag n (d : list bool -> R) A :
  (forall r c, length r = n -> length c = n -> A r c = if eqbits r c then RtoC (d r) * Ci else RtoC 0) ->
  forall r c, length r = n -> length c = n -> bexp n A r c = if eqbits r c then cis (d r) else RtoC 0.
Proof.
  intros H r c Hr Hc. pose proof (bpow_diag n (fun r => RtoC (d r) * Ci) A H) as HP.
  unfold bexp. destruct (eqbits r c) eqn:E.
  - unfold cis. apply Ceq; cbn [fst snd].
    + apply is_series_unique. eapply is_series_ext; [|apply is_series_cos].
      intros k. rewrite HP by assumption. rewrite E. reflexivity.
    + apply is_series_unique. eapply is_series_ext; [|apply is_series_sin].
      intros k. rewrite HP by assumption. rewrite E. reflexivity.
  - apply Ceq; cbn [fst snd]; apply is_series_unique; (eapply is_series_ext; [|exact is_series_zero]);
      intros k; rewrite HP by assumption; rewrite E; simpl; rring.
Qed.

(** ** Involutions: exp(i t P) = cos t + i sin t P *)
Lemma bpow_inv n P (t : R) :
  (forall r c, length r = n -> length c = n -> csum (fun z => P r z * P z c) (bits n) = bid r c) ->
  forall k r c, length r = n -> length c = n ->
  bpow n (fun r c => RtoC t * Ci * P r c) k r c = 
  RtoC (fst (itpow t k)) * bid r c + RtoC (snd (itpow t k)) * Ci * P r c.
Proof.
  intros H. induction k as [|k IH]; intros r c Hr Hc; cbn [bpow].
  - unfold bid. simpl. ring.
  - change (itpow t (S k)) with (RtoC t * Ci * itpow t k). set (z := itpow t k) in *.
    transitivity (RtoC t * Ci * RtoC (fst z) * csum (fun w => P r w * bid w c) (bits n) +
                  RtoC t * Ci * RtoC (snd z) * Ci * csum (fun w => P r w * P w c) (bits n)).
    { rewrite <- !csum_scal, <- csum_plus. apply csum_ext. intros w Hw. apply bits_length in Hw.
      rewrite IH by assumption. ring. }
    rewrite H by assumption.
    replace (csum (fun w => P r w * bid w c) (bits n)) with (P r c).
    2:{ symmetry. rewrite (csum_single _ _ c).
        - unfold bid. rewrite eqbits_refl. ring.
        - apply bits_nodup.
        - apply in_bits_iff; exact Hc.
        - intros w Hw Hne. unfold bid. destruct (eqbits w c) eqn:E; [apply eqbits_true in E; congruence|ring]. }
    assert (E1 : fst (RtoC t * Ci * z) = (- t * snd z)%R) by (simpl; ring).
    assert (E2 : snd (RtoC t * Ci * z) = (t * fst z)%R) by (simpl; ring).
    rewrite E1, E2. rewrite !RtoC_mult, RtoC_opp.
    replace (RtoC t * Ci * RtoC (snd z) * Ci * bid r c) with (- RtoC t * RtoC (snd z) * bid r c) by (apply Ceq; simpl; ring).
    ring.
Qed.

Lemma is_series_lin (f g : nat -> R) lf lg a b :
  is_series (fun k => f k / INR (fact k))%R lf -> is_series (fun k => g k / INR (fact k))%R lg ->
  is_series (fun k => (a * f k + b * g k) / INR (fact k))%R (a * lf + b * lg)%R.
Proof.
  intros Hf Hg.
  pose proof (is_series_plus _ _ _ _ (is_series_scal a _ _ Hf) (is_series_scal b _ _ Hg)) as H.
  eapply is_series_ext; [|exact H]. intros k. unfold plus, scal; simpl. unfold mult; simpl. rring.
Qed.

Lemma bexp_inv n P (t : R) :
  (forall r c, length r = n -> length c = n -> csum (fun z => P r z * P z c) (bits n) = bid r c) ->
  forall r c, length r = n -> length c = n ->
  bexp n (fun r c => RtoC t * Ci * P r c) r c = RtoC (cos t) * bid r c + RtoC (sin t) * Ci * P r c.
Proof.
  intros H r c Hr Hc. unfold bexp.
  assert (E : forall k, bpow n (fun r c => RtoC t * Ci * P r c) k r c =
     RtoC (fst (itpow t k)) * bid r c + RtoC (snd (itpow t k)) * Ci * P r c)
    by (intros; apply bpow_inv; assumption).
  pose proof (is_series_cos t) as SC. pose proof (is_series_sin t) as SS.
  assert (HR := is_series_lin _ _ _ _ (fst (bid r c)) (- snd (P r c))%R SC SS).
  assert (HJ := is_series_lin _ _ _ _ (snd (bid r c)) (fst (P r c)) SC SS).
  apply Ceq; cbn [fst snd].
  - erewrite is_series_unique; [|eapply is_series_ext; [|exact HR]].
    + simpl. ring.
    + intros k. rewrite E. rring.
  - erewrite is_series_unique; [|eapply is_series_ext; [|exact HJ]].
    + simpl. ring.
    + intros k. rewrite E. rring.
Qed.
