(** exp(A) exp(B) = exp(A + B) for commuting matrices. *)
From Coq Require Import String Reals List Arith Bool Lia Lra FunctionalExtensionality.
From Coquelicot Require Import Coquelicot.
From Coq Require Import List.
From Verif Require Import S_Ops M_Block S_Den L_Ops L_Den L_Loc L_Adj L_Exp.
Import ListNotations.
Open Scope R_scope.
Open Scope C_scope.

Definition badd (A B : bmat) : bmat := fun r c => A r c + B r c.
(** Equality on the strings of length [n]. *)
Definition beq (n : nat) (A B : bmat) : Prop := forall r c, length r = n -> length c = n -> A r c = B r c.
Lemma beq_refl n A : beq n A A.
Proof. intros r c _ _. reflexivity. Qed.
Lemma beq_sym n A B : beq n A B -> beq n B A.
Proof. intros H r c Hr Hc. symmetry. auto. Qed.
Lemma beq_trans n A B D : beq n A B -> beq n B D -> beq n A D.
Proof. intros H K r c Hr Hc. rewrite H, K by assumption. reflexivity. Qed.
Lemma bmul_beq n A A' B B' : beq n A A' -> beq n B B' -> beq n (bmul n A B) (bmul n A' B').
Proof. intros H K r c Hr Hc. apply csum_ext. intros z Hz. apply bits_length in Hz. rewrite H, K by assumption. reflexivity. Qed.
Lemma bmul_assoc n A B D r c : bmul n (bmul n A B) D r c = bmul n A (bmul n B D) r c.
Proof.
  unfold bmul. rewrite (csum_ext _ (fun z => csum (fun y => A r y * B y z * D z c) (bits n))) by (intros z _; rewrite <- csum_scal_r; reflexivity).
  rewrite csum_swap. apply csum_ext. intros y _. rewrite <- csum_scal. apply csum_ext. intros z _. ring.
Qed.
Lemma bmul_id_l n A : beq n (bmul n bid A) A.
Proof.
  intros r c Hr Hc. unfold bmul, bid. rewrite (csum_single _ _ r).
  - rewrite eqbits_refl. ring.
  - apply bits_nodup.
  - apply in_bits_iff; exact Hr.
  - intros z _ N. destruct (eqbits r z) eqn:E; [apply eqbits_true in E; congruence|ring].
Qed.
Lemma bmul_id_r n A : beq n (bmul n A bid) A.
Proof.
  intros r c Hr Hc. unfold bmul, bid. rewrite (csum_single _ _ c).
  - rewrite eqbits_refl. ring.
  - apply bits_nodup.
  - apply in_bits_iff; exact Hc.
  - intros z _ N. destruct (eqbits z c) eqn:E; [apply eqbits_true in E; congruence|ring].
Qed.
Lemma bpow_S n A k r c : bpow n A (S k) r c = bmul n A (bpow n A k) r c.
Proof. reflexivity. Qed.
Lemma bpow_comm n A B : beq n (bmul n A B) (bmul n B A) -> forall k, beq n (bmul n B (bpow n A k)) (bmul n (bpow n A k) B).
Proof.
  intros H. induction k as [|k IH].
  - intros r c Hr Hc. change (bpow n A 0) with bid. rewrite bmul_id_r, bmul_id_l by assumption. reflexivity.
  - intros r c Hr Hc. change (bpow n A (S k)) with (bmul n A (bpow n A k)). rewrite <- bmul_assoc.
    rewrite (bmul_beq n (bmul n B A) (bmul n A B) _ _ (beq_sym _ _ _ H) (beq_refl _ _)) by assumption. rewrite bmul_assoc.
    rewrite (bmul_beq n _ A _ _ (beq_refl _ _) IH) by assumption. rewrite <- bmul_assoc. reflexivity.
Qed.

(** ** Binomial theorem in the form  sum_{i+j=k} A^i B^j / (i! j!) = (A+B)^k / k! *)
Definition ifact (k : nat) : C := RtoC (/ INR (fact k)).
Lemma ifact_S k : RtoC (INR (S k)) * ifact (S k) = ifact k.
Proof.
  unfold ifact. rewrite <- RtoC_mult. f_equal. change (fact (S k)) with (S k * fact k)%nat. rewrite mult_INR. field. split; [apply INR_fact_neq_0|apply not_0_INR; lia].
Qed.
Section Binomial.
  Variables (n : nat) (A B : bmat).
  Hypothesis H : beq n (bmul n A B) (bmul n B A).
  Definition P (i j : nat) : bmat := bmul n (bpow n A i) (bpow n B j).
  Definition E (k : nat) : bmat := fun r c => csum (fun i => ifact i * ifact (k - i) * P i (k - i) r c) (seq 0 (S k)).
  Lemma P_A i j : beq n (bmul n A (P i j)) (P (S i) j).
  Proof. intros r c Hr Hc. unfold P. rewrite <- bmul_assoc. reflexivity. Qed.
  Lemma P_B i j : beq n (bmul n B (P i j)) (P i (S j)).
  Proof.
    intros r c Hr Hc. unfold P. rewrite <- bmul_assoc. rewrite (bmul_beq n _ _ _ _ (bpow_comm n A B H i) (beq_refl _ _)) by assumption. rewrite bmul_assoc. reflexivity.
  Qed.
  Lemma bmul_E X k r c : bmul n X (E k) r c = csum (fun i => ifact i * ifact (k - i) * bmul n X (P i (k - i)) r c) (seq 0 (S k)).
  Proof.
    unfold bmul, E. rewrite (csum_ext _ (fun z => csum (fun i => ifact i * ifact (k - i) * (X r z * P i (k - i) z c)) (seq 0 (S k)))).
    - rewrite csum_swap. apply csum_ext. intros i _. rewrite csum_scal. reflexivity.
    - intros z _. rewrite <- csum_scal. apply csum_ext. intros i _. ring.
  Qed.
  Lemma csum_seq_S (f : nat -> C) m : csum f (seq 1 m) = csum (fun i => f (S i)) (seq 0 m).
  Proof. rewrite <- seq_shift, csum_map. reflexivity. Qed.
  Lemma E_step k r c : length r = n -> length c = n -> RtoC (INR (S k)) * E (S k) r c = bmul n (badd A B) (E k) r c.
  Proof.
    intros Hr Hc.
    assert (L : bmul n (badd A B) (E k) r c = bmul n A (E k) r c + bmul n B (E k) r c).
    { unfold bmul. rewrite <- csum_plus. apply csum_ext. intros z _. unfold badd. ring. }
    rewrite L, !bmul_E. unfold E at 1. rewrite <- csum_scal.
    rewrite (csum_ext _ (fun i => RtoC (INR i) * ifact i * ifact (S k - i) * P i (S k - i) r c + RtoC (INR (S k - i)) * ifact i * ifact (S k - i) * P i (S k - i) r c)).
    2:{ intros i I. apply in_seq in I. replace (RtoC (INR (S k))) with (RtoC (INR i) + RtoC (INR (S k - i))); [ring|]. rewrite <- RtoC_plus, <- plus_INR. do 2 f_equal. lia. }
    rewrite csum_plus. f_equal.
    - change (seq 0 (S (S k))) with (0%nat :: seq 1 (S k)). cbn [csum]. rewrite csum_seq_S. replace (RtoC (INR 0)) with (RtoC 0) by reflexivity. rewrite !Cmult_0_l, Cplus_0_l.
      apply csum_ext. intros i I. rewrite P_A by assumption. rewrite ifact_S. change (S k - S i)%nat with (k - i)%nat. reflexivity.
    - rewrite seq_S, csum_app. cbn [csum plus]. rewrite Nat.sub_diag. replace (RtoC (INR 0)) with (RtoC 0) by reflexivity. rewrite !Cmult_0_l, !Cplus_0_r.
      apply csum_ext. intros i I. apply in_seq in I. rewrite P_B by assumption. replace (S k - i)%nat with (S (k - i)) by lia.
      replace (RtoC (INR (S (k - i))) * ifact i * ifact (S (k - i))) with (ifact i * (RtoC (INR (S (k - i))) * ifact (S (k - i)))) by ring. rewrite ifact_S. reflexivity.
  Qed.
  Lemma E_pow k : beq n (E k) (fun r c => ifact k * bpow n (badd A B) k r c).
  Proof.
    induction k as [|k IH]; intros r c Hr Hc.
    - unfold E, P. cbn [seq csum Nat.sub]. change (bpow n A 0) with bid. change (bpow n B 0) with bid. change (bpow n (badd A B) 0) with bid. rewrite bmul_id_l by assumption. unfold ifact. simpl fact. change (INR 1) with 1%R. rewrite Rinv_1. ring.
    - assert (N : RtoC (INR (S k)) <> 0) by (intros Z; apply RtoC_inj in Z; revert Z; apply not_0_INR; lia).
      assert (Q : forall x y, RtoC (INR (S k)) * x = RtoC (INR (S k)) * y -> x = y).
      { intros x y F. transitivity (/ RtoC (INR (S k)) * (RtoC (INR (S k)) * x)); [field; exact N|]. rewrite F. field. exact N. }
      apply Q. rewrite E_step by assumption. rewrite Cmult_assoc, ifact_S, bpow_S.
      rewrite (bmul_beq n _ (badd A B) _ _ (beq_refl _ _) IH) by assumption. unfold bmul. rewrite <- csum_scal. apply csum_ext. intros z _. ring.
  Qed.
End Binomial.

(** ** Complex series *)
Definition cser (a : nat -> C) (l : C) : Prop := is_series (fun k => fst (a k)) (fst l) /\ is_series (fun k => snd (a k)) (snd l).
Definition cabs (a : nat -> C) : Prop := ex_series (fun k => Rabs (fst (a k))) /\ ex_series (fun k => Rabs (snd (a k))).
Lemma cser_ext a b l : (forall k, a k = b k) -> cser a l -> cser b l.
Proof. intros H [A B]. split; (eapply is_series_ext; [|eassumption]); intros k; cbv beta; rewrite H; reflexivity. Qed.
Lemma cser_unique a l m : cser a l -> cser a m -> l = m.
Proof. intros [A B] [D F]. apply Ceq; [rewrite <- (is_series_unique _ _ A), <- (is_series_unique _ _ D)|rewrite <- (is_series_unique _ _ B), <- (is_series_unique _ _ F)]; reflexivity. Qed.
Lemma cser_plus a b l m : cser a l -> cser b m -> cser (fun k => a k + b k) (l + m).
Proof. intros [A B] [D F]. split; [exact (is_series_plus _ _ _ _ A D)|exact (is_series_plus _ _ _ _ B F)]. Qed.
Lemma cser_zero : cser (fun _ => 0) 0.
Proof. split; exact is_series_zero. Qed.
Lemma cser_csum {T} (f : T -> nat -> C) (g : T -> C) l : (forall t, In t l -> cser (f t) (g t)) -> cser (fun k => csum (fun t => f t k) l) (csum g l).
Proof.
  induction l as [|t l IH]; intros H; cbn [csum]; [exact cser_zero|]. apply cser_plus; [apply H; left; reflexivity|apply IH; intros u I; apply H; right; exact I].
Qed.
Lemma sum_csum_fst (f : nat -> C) m : fst (csum f (seq 0 (S m))) = sum_f_R0 (fun k => fst (f k)) m.
Proof. induction m as [|m IH]; [cbn; ring|]. rewrite seq_S, csum_app. cbn [sum_f_R0]. rewrite <- IH. cbn [csum plus]. simpl. ring. Qed.
Lemma sum_csum_snd (f : nat -> C) m : snd (csum f (seq 0 (S m))) = sum_f_R0 (fun k => snd (f k)) m.
Proof. induction m as [|m IH]; [cbn; ring|]. rewrite seq_S, csum_app. cbn [sum_f_R0]. rewrite <- IH. cbn [csum plus]. simpl. ring. Qed.
Lemma cser_mult a b la lb : cser a la -> cser b lb -> cabs a -> cabs b -> cser (fun m => csum (fun k => a k * b (m - k)%nat) (seq 0 (S m))) (la * lb).
Proof.
  intros [A1 A2] [B1 B2] [C1 C2] [D1 D2].
  pose proof (is_series_mult _ _ _ _ A1 B1 C1 D1) as M11. pose proof (is_series_mult _ _ _ _ A2 B2 C2 D2) as M22.
  pose proof (is_series_mult _ _ _ _ A1 B2 C1 D2) as M12. pose proof (is_series_mult _ _ _ _ A2 B1 C2 D1) as M21.
  split.
  - eapply is_series_ext; [|exact (is_series_minus _ _ _ _ M11 M22)]. intros m. cbv beta. rewrite sum_csum_fst.
    change (sum_f_R0 (fun k => fst (a k) * fst (b (m - k)%nat))%R m - sum_f_R0 (fun k => snd (a k) * snd (b (m - k)%nat))%R m = sum_f_R0 (fun k => fst (a k * b (m - k)%nat)%C) m)%R.
    rewrite <- minus_sum. apply sum_eq. intros k _. simpl. ring.
  - eapply is_series_ext; [|exact (is_series_plus _ _ _ _ M12 M21)]. intros m. cbv beta. rewrite sum_csum_snd.
    change (sum_f_R0 (fun k => fst (a k) * snd (b (m - k)%nat))%R m + sum_f_R0 (fun k => snd (a k) * fst (b (m - k)%nat))%R m = sum_f_R0 (fun k => snd (a k * b (m - k)%nat)%C) m)%R.
    rewrite <- sum_plus. apply sum_eq. intros k _. simpl. ring.
Qed.
Lemma bexp_cser n A r c : length r = n -> length c = n -> cser (fun k => ifact k * bpow n A k r c) (bexp n A r c) /\ cabs (fun k => ifact k * bpow n A k r c).
Proof.
  intros Hr Hc. destruct (bexp_converges n A r c Hr Hc) as [S1 S2]. destruct (bmat_bound n A) as (m & H0 & Hm). pose proof (bpow_bound n A m H0 Hm) as HB.
  assert (F1 : forall k, fst (ifact k * bpow n A k r c) = (fst (bpow n A k r c) / INR (fact k))%R) by (intros k; unfold ifact; simpl; unfold Rdiv; ring).
  assert (F2 : forall k, snd (ifact k * bpow n A k r c) = (snd (bpow n A k r c) / INR (fact k))%R) by (intros k; unfold ifact; simpl; unfold Rdiv; ring).
  assert (Pk : forall k, (0 < / INR (fact k))%R) by (intros k; apply Rinv_0_lt_compat, INR_fact_lt_0).
  split; split.
  - eapply is_series_ext; [|exact S1]. intros k. symmetry. apply F1.
  - eapply is_series_ext; [|exact S2]. intros k. symmetry. apply F2.
  - eapply ex_series_ext; [|apply (ex_bounded (fun k => Rabs (fst (bpow n A k r c))) (INR (length (bits n)) * m)%R)].
    + intros k. cbv beta. rewrite F1. unfold Rdiv. rewrite Rabs_mult, (Rabs_pos_eq (/ _)) by (apply Rlt_le, Pk). reflexivity.
    + intros k. rewrite Rabs_Rabsolu. eapply Rle_trans; [apply fst_le_Cmod|apply HB; assumption].
  - eapply ex_series_ext; [|apply (ex_bounded (fun k => Rabs (snd (bpow n A k r c))) (INR (length (bits n)) * m)%R)].
    + intros k. cbv beta. rewrite F2. unfold Rdiv. rewrite Rabs_mult, (Rabs_pos_eq (/ _)) by (apply Rlt_le, Pk). reflexivity.
    + intros k. rewrite Rabs_Rabsolu. eapply Rle_trans; [apply snd_le_Cmod|apply HB; assumption].
Qed.
Theorem bexp_add n A B : beq n (bmul n A B) (bmul n B A) -> beq n (bmul n (bexp n A) (bexp n B)) (bexp n (badd A B)).
Proof.
  intros H r c Hr Hc. destruct (bexp_cser n (badd A B) r c Hr Hc) as [SE _].
  apply (cser_unique (fun k => ifact k * bpow n (badd A B) k r c)); [|exact SE]. unfold bmul.
  eapply cser_ext; [|apply (cser_csum (fun z m => csum (fun k => (ifact k * bpow n A k r z) * (ifact (m - k) * bpow n B (m - k) z c)) (seq 0 (S m))))].
  - intros m. cbv beta. rewrite csum_swap. rewrite <- (E_pow n A B H m r c Hr Hc). unfold E, P, bmul. apply csum_ext. intros k _. rewrite <- csum_scal. apply csum_ext. intros z _. ring.
  - intros z Hz. apply bits_length in Hz. destruct (bexp_cser n A r z Hr Hz) as [S1 A1]. destruct (bexp_cser n B z c Hz Hc) as [S2 A2]. exact (cser_mult _ _ _ _ S1 S2 A1 A2).
Qed.
