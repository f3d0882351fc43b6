(** C12: conversion between integers and basis strings. *)
From Coq Require Import ZArith List Arith Bool Reals Lia Lra Permutation.
From Verif Require Import M_Basis.
Import ListNotations.

(** ** Specification: strings of 0/1 characters *)
Definition bit_of (c : ch) : bool := match c with C1 => true | _ => false end.
Definition is_digit (c : ch) : Prop := c <> Cminus.
(** [s] is the string of the n lowest bits of [k], most significant first (Big) or last (Little). *)
Definition spells (s : list ch) (n : nat) (k : Z) (e : endian) : Prop :=
  length s = n /\ Forall is_digit s /\
  forall i, (i < n)%nat -> bit_of (nth i s C0) =
    match e with Big => Z.testbit k (Z.of_nat (n - 1 - i)) | Little => Z.testbit k (Z.of_nat i) end.

(** ** Digits *)
Lemma pos_digits_digit p : Forall is_digit (pos_digits p).
Proof. induction p; simpl; try (apply Forall_app; split; [assumption|]); repeat constructor; discriminate. Qed.
Lemma pos_digits_nonempty p : pos_digits p <> [].
Proof. destruct p; simpl; try discriminate; intros E; apply app_eq_nil in E as [_ E]; discriminate. Qed.
Lemma pos_digits_bits p : forall i, (i < length (pos_digits p))%nat ->
  bit_of (nth i (pos_digits p) C0) = Z.testbit (Zpos p) (Z.of_nat (length (pos_digits p) - 1 - i)).
Proof.
  induction p as [p IH|p IH|]; simpl; intros i Hi.
  - rewrite app_length in *. simpl in *. destruct (Nat.eq_dec i (length (pos_digits p))) as [->|Hne].
    + rewrite app_nth2, Nat.sub_diag by lia. simpl. replace (length (pos_digits p) + 1 - 1 - length (pos_digits p))%nat with 0%nat by lia. reflexivity.
    + rewrite app_nth1, IH by lia. replace (Z.of_nat (length (pos_digits p) + 1 - 1 - i)) with (Z.succ (Z.of_nat (length (pos_digits p) - 1 - i))) by lia.
      rewrite (Pos2Z.inj_xI p), Z.testbit_odd_succ by lia. reflexivity.
  - rewrite app_length in *. simpl in *. destruct (Nat.eq_dec i (length (pos_digits p))) as [->|Hne].
    + rewrite app_nth2, Nat.sub_diag by lia. simpl. replace (length (pos_digits p) + 1 - 1 - length (pos_digits p))%nat with 0%nat by lia. reflexivity.
    + rewrite app_nth1, IH by lia. replace (Z.of_nat (length (pos_digits p) + 1 - 1 - i)) with (Z.succ (Z.of_nat (length (pos_digits p) - 1 - i))) by lia.
      rewrite (Pos2Z.inj_xO p), Z.testbit_even_succ by lia. reflexivity.
  - destruct i; [reflexivity|lia].
Qed.
Lemma pos_digits_bounds p : (2 ^ Z.of_nat (length (pos_digits p) - 1) <= Zpos p < 2 ^ Z.of_nat (length (pos_digits p)))%Z.
Proof.
  induction p as [p IH|p IH|]; simpl; [| |lia].
  - rewrite app_length. simpl. pose proof (pos_digits_nonempty p). destruct (length (pos_digits p)) as [|m] eqn:E; [destruct (pos_digits p); [congruence|discriminate]|].
    replace (S m - 1)%nat with m in IH by lia. replace (S m + 1 - 1)%nat with (S m) by lia. replace (S m + 1)%nat with (S (S m)) by lia.
    rewrite !Nat2Z.inj_succ, !Z.pow_succ_r in * by lia. lia.
  - rewrite app_length. simpl. pose proof (pos_digits_nonempty p). destruct (length (pos_digits p)) as [|m] eqn:E; [destruct (pos_digits p); [congruence|discriminate]|].
    replace (S m - 1)%nat with m in IH by lia. replace (S m + 1 - 1)%nat with (S m) by lia. replace (S m + 1)%nat with (S (S m)) by lia.
    rewrite !Nat2Z.inj_succ, !Z.pow_succ_r in * by lia. lia.
Qed.

Lemma nth_repeat0 n i : nth i (repeat C0 n) C0 = C0.
Proof. revert i. induction n; destruct i; simpl; auto. Qed.

Lemma zpad_spells n p : (Zpos p < 2 ^ Z.of_nat n)%Z -> spells (zpad n (pos_digits p)) n (Zpos p) Big.
Proof.
  intros Hp. pose proof (pos_digits_bounds p) as HB.
  assert (HL : (length (pos_digits p) <= n)%nat).
  { destruct (le_lt_dec (length (pos_digits p)) n) as [H|H]; [exact H|]. exfalso.
    assert (2 ^ Z.of_nat n <= 2 ^ Z.of_nat (length (pos_digits p) - 1))%Z by (apply Z.pow_le_mono_r; lia). lia. }
  unfold zpad. split; [rewrite app_length, repeat_length; lia|]. split.
  - apply Forall_app. split; [apply Forall_forall; intros c Hc; apply repeat_spec in Hc; subst; discriminate|apply pos_digits_digit].
  - intros i Hi. destruct (le_lt_dec (n - length (pos_digits p)) i) as [H|H].
    + rewrite app_nth2 by (rewrite repeat_length; exact H). rewrite repeat_length, pos_digits_bits by lia. f_equal. lia.
    + rewrite app_nth1 by (rewrite repeat_length; exact H). rewrite nth_repeat0. simpl. symmetry.
      apply Z.bits_above_log2; [lia|].
      apply Z.lt_le_trans with (Z.of_nat (length (pos_digits p))); [|lia].
      apply Z.log2_lt_pow2; [lia|]. apply HB.
Qed.
Lemma zpad0_spells n : (1 <= n)%nat -> spells (zpad n [C0]) n 0 Big.
Proof.
  intros Hn. unfold zpad. split; [rewrite app_length, repeat_length; simpl; lia|]. split.
  - apply Forall_app. split; [apply Forall_forall; intros c Hc; apply repeat_spec in Hc; subst; discriminate|repeat constructor; discriminate].
  - intros i Hi. rewrite Z.testbit_0_l. simpl length. destruct (le_lt_dec (n - 1) i) as [H|H].
    + rewrite app_nth2 by (rewrite repeat_length; exact H). rewrite repeat_length. replace (i - (n - 1))%nat with 0%nat by lia. reflexivity.
    + rewrite app_nth1 by (rewrite repeat_length; exact H). rewrite nth_repeat0. reflexivity.
Qed.
Lemma spells_rev s n k : spells s n k Big -> spells (rev s) n k Little.
Proof.
  intros (H1 & H2 & H3). split; [rewrite rev_length; exact H1|]. split; [apply Forall_rev, H2|].
  intros i Hi. rewrite rev_nth by lia. rewrite H3 by lia. f_equal. f_equal. lia.
Qed.
Lemma spells_unique s s' n k e : spells s n k e -> spells s' n k e -> s = s'.
Proof.
  intros (H1 & H2 & H3) (G1 & G2 & G3). apply (nth_ext s s' C0 C0); [congruence|]. intros i Hi. rewrite H1 in Hi.
  specialize (H3 i Hi). specialize (G3 i Hi). rewrite <- G3 in H3.
  rewrite Forall_forall in H2, G2.
  assert (D1 : is_digit (nth i s C0)) by (apply H2, nth_In; lia). assert (D2 : is_digit (nth i s' C0)) by (apply G2, nth_In; lia).
  unfold is_digit in *. destruct (nth i s C0), (nth i s' C0); simpl in *; congruence.
Qed.

(** ** Parsing *)
Fixpoint dval (l : list ch) : Z := match l with [] => 0 | c :: r => (if bit_of c then 1 else 0) * 2 ^ Z.of_nat (length r) + dval r end%Z.
Lemma parse_dval l : Forall is_digit l -> forall acc, parse_digits l acc = Some (acc * 2 ^ Z.of_nat (length l) + dval l)%Z.
Proof.
  induction 1 as [|c l Hc Hl IH]; intros acc; [simpl; f_equal; lia|].
  cbn [dval length]. rewrite Nat2Z.inj_succ, Z.pow_succ_r by lia.
  destruct c; [| |congruence]; cbn [parse_digits bit_of]; rewrite IH; f_equal; lia.
Qed.
Lemma dval_bound l : (0 <= dval l < 2 ^ Z.of_nat (length l))%Z.
Proof.
  induction l as [|c l IH]; [simpl; lia|]. cbn [dval length]. rewrite Nat2Z.inj_succ, Z.pow_succ_r by lia. destruct (bit_of c); lia.
Qed.
Lemma dval_bits l : forall i, (i < length l)%nat -> Z.testbit (dval l) (Z.of_nat (length l - 1 - i)) = bit_of (nth i l C0).
Proof.
  induction l as [|c l IH]; [simpl; lia|]. intros i Hi. cbn [length] in Hi. cbn [dval].
  pose proof (dval_bound l) as HB. set (d := dval l) in *. set (n := length l) in *.
  destruct i as [|i].
  - cbn [length nth]. replace (S (length l) - 1 - 0)%nat with n by (unfold n; lia).
    destruct (bit_of c).
    + rewrite Z.testbit_true by lia.
      replace ((1 * 2 ^ Z.of_nat n + d) / 2 ^ Z.of_nat n)%Z with 1%Z; [reflexivity|].
      rewrite Z.div_add_l by lia. rewrite Z.div_small by lia. reflexivity.
    + replace (0 * 2 ^ Z.of_nat n + d)%Z with d by lia. 
      destruct (Z.testbit d (Z.of_nat n)) eqn:E; [|reflexivity]. apply Z.testbit_true in E; [|lia]. rewrite Z.div_small in E by lia. discriminate.
  - cbn [length nth]. replace (S (length l) - 1 - S i)%nat with (n - 1 - i)%nat by (unfold n; lia).
    rewrite <- IH by (unfold n in *; lia). fold n. destruct (bit_of c); [|f_equal; lia].
    rewrite Z.mul_1_l. rewrite <- (Z.mod_pow2_bits_low (2 ^ Z.of_nat n + d) (Z.of_nat n)) by lia.
    replace (2 ^ Z.of_nat n + d)%Z with (d + 1 * 2 ^ Z.of_nat n)%Z by lia. rewrite Z.mod_add by lia. rewrite Z.mod_small by lia. reflexivity.
Qed.
Lemma spells_dval s : spells s (length s) (dval s) Big \/ ~ Forall is_digit s.
Proof.
  destruct (Forall_dec is_digit) with (l := s) as [H|H]; [intros [| |]; [left|left|right]; unfold is_digit; congruence| |right; exact H].
  left. split; [reflexivity|]. split; [exact H|]. intros i Hi. symmetry. apply dval_bits, Hi.
Qed.

Lemma basis_value s e : s <> [] -> Forall is_digit s -> exists k, basis_to_int s e = Some k /\ (0 <= k < 2 ^ Z.of_nat (length s))%Z /\ spells s (length s) k e.
Proof.
  intros Hne Hd.
  assert (G : forall t, t <> [] -> Forall is_digit t -> py_int2 t = Some (dval t)).
  { intros t Ht Hd'. destruct t as [|c t]; [congruence|]. unfold py_int2. pose proof (parse_dval _ Hd' 0%Z) as P.
    rewrite Z.mul_0_l, Z.add_0_l in P. inversion Hd' as [|? ? Hc ?]; subst. destruct c; try exact P. destruct (Hc eq_refl). }
  destruct e; simpl.
  - exists (dval s). rewrite G by assumption. split; [reflexivity|]. split; [apply dval_bound|].
    destruct (spells_dval s); [assumption|contradiction].
  - exists (dval (rev s)). rewrite G.
    + split; [reflexivity|]. rewrite <- (rev_length s). split; [apply dval_bound|].
      destruct (spells_dval (rev s)) as [H|H]; [|exfalso; apply H, Forall_rev, Hd].
      rewrite <- (rev_involutive s) at 1. apply spells_rev, H.
    + intros E. apply Hne. apply (f_equal (@rev ch)) in E. rewrite rev_involutive in E. exact E.
    + apply Forall_rev, Hd.
Qed.

Lemma spells_inj s n k k' e : (0 <= k < 2 ^ Z.of_nat n)%Z -> (0 <= k' < 2 ^ Z.of_nat n)%Z -> spells s n k e -> spells s n k' e -> k = k'.
Proof.
  intros Hk Hk' (_ & _ & H) (_ & _ & H'). apply Z.bits_inj'. intros i Hi.
  destruct (Z_lt_le_dec i (Z.of_nat n)) as [Hlt|Hge].
  - destruct e.
    + specialize (H (n - 1 - Z.to_nat i)%nat ltac:(lia)). specialize (H' (n - 1 - Z.to_nat i)%nat ltac:(lia)). rewrite H in H'.
      replace (Z.of_nat (n - 1 - (n - 1 - Z.to_nat i))) with i in H' by lia. exact H'.
    + specialize (H (Z.to_nat i) ltac:(lia)). specialize (H' (Z.to_nat i) ltac:(lia)). rewrite H in H'. rewrite Z2Nat.id in H' by lia. exact H'.
  - assert (B : forall z, (0 <= z < 2 ^ Z.of_nat n)%Z -> Z.testbit z i = false).
    { intros z Hz. destruct (Z.testbit z i) eqn:E; [|reflexivity]. apply Z.testbit_true in E; [|lia].
      rewrite Z.div_small in E; [discriminate|]. split; [lia|]. apply Z.lt_le_trans with (2 ^ Z.of_nat n)%Z; [lia|]. apply Z.pow_le_mono_r; lia. }
    rewrite !B by assumption. reflexivity.
Qed.

Lemma itb_spec k n e : (1 <= n)%nat -> (0 <= k < 2 ^ Z.of_nat n)%Z -> exists s, int_to_basis k (Some (Z.of_nat n)) e = Some s /\ spells s n k e.
Proof.
  intros Hn Hk. unfold int_to_basis. replace (Z.of_nat n <? 0)%Z with false by (symmetry; apply Z.ltb_ge; lia).
  replace (k <=? 2 ^ Z.of_nat n - 1)%Z with true by (symmetry; apply Z.leb_le; lia). rewrite Nat2Z.id.
  assert (G : spells (py_format k n) n k Big).
  { destruct k as [|p|p]; [apply zpad0_spells; exact Hn|apply zpad_spells; lia|lia]. }
  destruct e; eexists; split; try reflexivity; [exact G|apply spells_rev, G].
Qed.

(** ** Theorems *)

(** int_to_basis writes the n bits of k, and basis_to_int reads them back. *)
Theorem C12_int_to_basis : forall k n e, (1 <= n)%nat -> (0 <= k < 2 ^ Z.of_nat n)%Z ->
  exists s, int_to_basis k (Some (Z.of_nat n)) e = Some s /\ spells s n k e /\ basis_to_int s e = Some k.
Proof.
  intros k n e Hn Hk. destruct (itb_spec k n e Hn Hk) as (s & E & S). exists s. split; [exact E|]. split; [exact S|].
  destruct (basis_value s e) as (k' & E' & Hk' & S').
  - intros ->. destruct S as [S _]. simpl in S. lia.
  - apply S.
  - rewrite E'. f_equal. replace (length s) with n in * by (symmetry; apply S). eapply spells_inj; eassumption.
Qed.

(** basis_to_int reads the bits of a string, and int_to_basis writes the string back. *)
Theorem C12_basis_to_int : forall s e, s <> [] -> Forall is_digit s ->
  exists k, basis_to_int s e = Some k /\ (0 <= k < 2 ^ Z.of_nat (length s))%Z /\ spells s (length s) k e /\
    int_to_basis k (Some (Z.of_nat (length s))) e = Some s.
Proof.
  intros s e Hne Hd. destruct (basis_value s e Hne Hd) as (k & E & Hk & S). exists k. split; [exact E|]. split; [exact Hk|]. split; [exact S|].
  destruct (itb_spec k (length s) e) as (s' & E' & S'); [destruct s; [congruence|simpl; lia]|exact Hk|].
  rewrite E'. f_equal. eapply spells_unique; eassumption.
Qed.

(** A leading minus sign, as in the texts of negative numbers, negates the value; a sign anywhere else is refused. *)
Theorem C12_minus : forall s, s <> [] -> Forall is_digit s ->
  (exists k, basis_to_int s Big = Some k /\ basis_to_int (Cminus :: s) Big = Some (- k)%Z) /\
  forall t c, basis_to_int (c :: t ++ Cminus :: s) Big = None.
Proof.
  intros s Hne Hd. split.
  - destruct (basis_value s Big Hne Hd) as (k & E & _). exists k. split; [exact E|]. destruct s as [|c s]; [congruence|]. inversion Hd as [|? ? Hc _]; subst. cbn [basis_to_int] in *.
    destruct c; [| |destruct (Hc eq_refl)]; cbn [py_int2] in *; rewrite E; reflexivity.
  - assert (G : forall t acc, parse_digits (t ++ Cminus :: s) acc = None) by (induction t as [|[| |] t IH]; intros acc; cbn [app parse_digits]; auto).
    intros t c. cbn [basis_to_int]. destruct c; cbn [py_int2 parse_digits]; try apply G. destruct (t ++ Cminus :: s) as [|d u] eqn:E; [reflexivity|]. rewrite <- E, G. reflexivity.
Qed.
(** Integers that do not fit are rejected. *)
Theorem C12_too_large : forall k n e, (2 ^ Z.of_nat n <= k)%Z -> int_to_basis k (Some (Z.of_nat n)) e = None.
Proof.
  intros k n e H. unfold int_to_basis. replace (Z.of_nat n <? 0)%Z with false by (symmetry; apply Z.ltb_ge; lia).
  replace (k <=? 2 ^ Z.of_nat n - 1)%Z with false by (symmetry; apply Z.leb_gt; lia). reflexivity.
Qed.

(** Negative integers are not rejected: the result is not a basis string. *)
Theorem C12_negative_refuted : exists k n s, (k < 0)%Z /\ int_to_basis k (Some n) Big = Some s /\ ~ Forall is_digit s.
Proof. exists (-1)%Z, 2%Z, [Cminus; C1]. split; [lia|]. split; [reflexivity|]. intros H. inversion H; subst. congruence. Qed.

Lemma Int_part_spec r z : (r - 1 < IZR z <= r)%R -> z = Int_part r.
Proof. intros [H1 H2]. unfold Int_part. rewrite <- (tech_up r (z + 1)); [lia|rewrite plus_IZR; lra|rewrite plus_IZR; lra]. Qed.
Lemma log2_trunc k m : (0 < k)%Z -> (2 ^ Z.of_nat m <= k < 2 ^ Z.of_nat (S m))%Z -> py_trunc (ln (IZR k + 6 / 10) / ln 2) = Z.of_nat m.
Proof.
  intros Hk [H1 H2].
  assert (L2 : (0 < ln 2)%R) by (rewrite <- ln_1; apply ln_increasing; lra).
  assert (P : forall j, IZR (2 ^ Z.of_nat j) = (2 ^ j)%R).
  { intros j. rewrite <- pow_IZR. reflexivity. }
  assert (Lp : forall j, (ln (2 ^ j) = INR j * ln 2)%R).
  { intros j. rewrite <- ln_pow by lra. reflexivity. }
  assert (A1 : (2 ^ m < IZR k + 6 / 10)%R).
  { apply IZR_le in H1. rewrite P in H1. lra. }
  assert (A2 : (IZR k + 6 / 10 < 2 ^ S m)%R).
  { assert (k + 1 <= 2 ^ Z.of_nat (S m))%Z as H by lia. apply IZR_le in H. rewrite P, plus_IZR in H. lra. }
  assert (Pm : forall j, (0 < 2 ^ j)%R) by (intros; apply pow_lt; lra).
  apply ln_increasing in A1; [|apply Pm]. apply ln_increasing in A2; [|assert (0 < IZR k)%R by (apply IZR_lt; exact Hk); lra].
  rewrite Lp in A1, A2. set (x := (ln (IZR k + 6 / 10) / ln 2)%R).
  assert (X1 : (INR m < x)%R) by (unfold x; apply Rmult_lt_reg_r with (ln 2); [exact L2|]; unfold Rdiv; rewrite Rmult_assoc, Rinv_l, Rmult_1_r by lra; exact A1).
  assert (X2 : (x < INR (S m))%R) by (unfold x; apply Rmult_lt_reg_r with (ln 2); [exact L2|]; unfold Rdiv; rewrite Rmult_assoc, Rinv_l, Rmult_1_r by lra; exact A2).
  unfold py_trunc. destruct (Rlt_dec x 0) as [H|_]; [exfalso; pose proof (pos_INR m); lra|].
  rewrite INR_IZR_INZ in X1, X2. symmetry. apply Int_part_spec. rewrite Nat2Z.inj_succ, succ_IZR in X2. lra.
Qed.

(** Without a width, the shortest string is written. *)
Theorem C12_default_width : forall k e, (0 <= k)%Z -> exists s n, int_to_basis k None e = Some s /\ (1 <= n)%nat /\ spells s n k e /\
  (k < 2 ^ Z.of_nat n)%Z /\ (forall m, (1 <= m < n)%nat -> (2 ^ Z.of_nat m <= k)%Z).
Proof.
  intros k e Hk.
  assert (HN : exists n, (1 <= n)%nat /\ (k < 2 ^ Z.of_nat n)%Z /\ (forall m, (1 <= m < n)%nat -> (2 ^ Z.of_nat m <= k)%Z) /\
     (py_trunc (ln (IZR k + 6 / 10) / ln 2) + 1 = Z.of_nat n)%Z).
  { destruct (Z.eq_dec k 0) as [->|Hne].
    - exists 1%nat. split; [lia|]. split; [reflexivity|]. split; [intros; lia|].
      replace (py_trunc _) with 0%Z; [reflexivity|]. unfold py_trunc.
      assert (L2 : (0 < ln 2)%R) by (rewrite <- ln_1; apply ln_increasing; lra).
      set (x := (ln (0 + 6 / 10) / ln 2)%R).
      assert (X1 : (x < 0)%R).
      { unfold x. apply Rmult_lt_reg_r with (ln 2); [exact L2|]. unfold Rdiv. rewrite Rmult_assoc, Rinv_l, Rmult_1_r, Rmult_0_l by lra.
        assert (H : (ln (0 + 6 / 10) < ln 1)%R) by (apply ln_increasing; lra). rewrite ln_1 in H. exact H. }
      assert (X2 : (- 1 < x)%R).
      { unfold x. apply Rmult_lt_reg_r with (ln 2); [exact L2|]. unfold Rdiv. rewrite Rmult_assoc, Rinv_l, Rmult_1_r by lra.
        replace (-1 * ln 2)%R with (ln (/ 2)) by (rewrite ln_Rinv by lra; lra). apply ln_increasing; lra. }
      destruct (Rlt_dec x 0) as [_|]; [|contradiction]. symmetry. assert (E : Int_part (- x) = 0%Z) by (symmetry; apply Int_part_spec; lra). lia.
    - set (m := Z.to_nat (Z.log2 k)). pose proof (Z.log2_spec k ltac:(lia)) as [L1 L2]. pose proof (Z.log2_nonneg k).
      exists (S m). assert (Em : Z.of_nat m = Z.log2 k) by (unfold m; apply Z2Nat.id; lia).
      split; [lia|]. split; [rewrite Nat2Z.inj_succ, Em; exact L2|]. split.
      + intros j Hj. apply Z.le_trans with (2 ^ Z.log2 k)%Z; [apply Z.pow_le_mono_r; lia|exact L1].
      + rewrite (log2_trunc k m); [lia|lia|]. rewrite Nat2Z.inj_succ, Em. auto. }
  destruct HN as (n & N1 & N2 & N3 & N4). destruct (itb_spec k n e N1 ltac:(lia)) as (s & E & S).
  exists s, n. split; [|auto]. unfold int_to_basis in *. destruct (Rlt_dec 0 (IZR k + 6 / 10)) as [_|H].
  - rewrite N4. exact E.
  - exfalso. apply H. apply IZR_le in Hk. lra.
Qed.

(** nqubits_to_basis lists every basis string once, the i-th being that of the integer i. *)
Theorem C12_nqubits_to_basis : forall n e, (1 <= n)%nat -> exists l,
  nqubits_to_basis n e = map Some l /\ length l = (2 ^ n)%nat /\ NoDup l /\
  (forall i, (i < 2 ^ n)%nat -> spells (nth i l []) n (Z.of_nat i) e) /\
  (forall s, In s l <-> length s = n /\ Forall is_digit s).
Proof.
  intros n e Hn.
  assert (HP : forall i, (i < 2 ^ n)%nat -> (0 <= Z.of_nat i < 2 ^ Z.of_nat n)%Z).
  { intros i Hi. split; [lia|]. apply Nat2Z.inj_lt in Hi. rewrite Nat2Z.inj_pow in Hi. exact Hi. }
  set (f := fun k => match int_to_basis (Z.of_nat k) (Some (Z.of_nat n)) e with Some s => s | None => [] end).
  assert (Hf : forall i, (i < 2 ^ n)%nat -> int_to_basis (Z.of_nat i) (Some (Z.of_nat n)) e = Some (f i) /\ spells (f i) n (Z.of_nat i) e).
  { intros i Hi. destruct (itb_spec (Z.of_nat i) n e Hn (HP i Hi)) as (s & E & S). unfold f. rewrite E. auto. }
  exists (map f (seq 0 (2 ^ n))).
  split; [|split; [|split; [|split]]].
  - unfold nqubits_to_basis. rewrite map_map. apply map_ext_in. intros i Hi. apply in_seq in Hi. apply Hf. lia.
  - rewrite map_length, seq_length. reflexivity.
  - apply (NoDup_nth _ []). rewrite map_length, seq_length. intros i j Hi Hj E.
    rewrite (nth_indep _ [] (f 0)), (nth_indep _ [] (f 0) (n := j)) in E by (rewrite map_length, seq_length; assumption).
    rewrite !map_nth, !seq_nth in E by assumption. simpl in E.
    destruct (Hf i Hi) as [_ S1], (Hf j Hj) as [_ S2]. rewrite E in S1.
    pose proof (spells_inj _ _ _ _ _ (HP i Hi) (HP j Hj) S1 S2). lia.
  - intros i Hi. rewrite (nth_indep _ [] (f 0)) by (rewrite map_length, seq_length; assumption).
    rewrite map_nth, seq_nth by assumption. apply Hf, Hi.
  - intros s. rewrite in_map_iff. split.
    + intros (i & <- & Hi). apply in_seq in Hi. destruct (Hf i ltac:(lia)) as [_ (S1 & S2 & _)]. auto.
    + intros [H1 H2]. destruct (basis_value s e) as (k & E & Hk & S); [destruct s; [simpl in H1; lia|discriminate]|exact H2|].
      rewrite H1 in *. exists (Z.to_nat k). assert (Hlt : (Z.to_nat k < 2 ^ n)%nat).
      { apply Nat2Z.inj_lt. rewrite Z2Nat.id, Nat2Z.inj_pow by lia. apply Hk. }
      split; [|apply in_seq; lia]. destruct (Hf _ Hlt) as [_ S']. rewrite Z2Nat.id in S' by lia. eapply spells_unique; eassumption.
Qed.

(** For zero qubits the single basis state is written with one character. *)
Theorem C12_zero_qubits_refuted : nqubits_to_basis 0 Big = [Some [C0]].
Proof. reflexivity. Qed.

(** ** Counters *)
Definition lookup {K} (eqb : K -> K -> bool) (d : list (K * Z)) (k : K) : Z :=
  match find (fun p => eqb (fst p) k) d with Some p => snd p | None => 0 end.
Definition total {K} (d : list (K * Z)) : Z := fold_right (fun p a => snd p + a)%Z 0%Z d.

Lemma samples_aux e n : (1 <= n)%nat -> forall samples acc,
  (forall s v, In (s, v) samples -> length s = n /\ Forall is_digit s) -> NoDup (map fst samples) ->
  (forall s v k, In (s, v) samples -> basis_to_int s e = Some k -> ~ In k (map fst acc)) ->
  exists c, samples_to_integers_aux samples e acc = Some (acc ++ c) /\
    Forall2 (fun sv kv => basis_to_int (fst sv) e = Some (fst kv) /\ snd kv = snd sv) samples c.
Proof.
  intros Hn. induction samples as [|[s v] samples IH]; intros acc Hs Hnd Hacc.
  - exists []. rewrite app_nil_r. split; [reflexivity|constructor].
  - cbn [samples_to_integers_aux]. destruct (Hs s v (or_introl eq_refl)) as [L D].
    destruct (basis_value s e) as (k & E & Hk & S); [destruct s; [simpl in L; lia|discriminate]|exact D|]. rewrite E.
    assert (Hk' : existsb (fun p => (fst p =? k)%Z) acc = false).
    { apply Bool.not_true_iff_false. intros Ex. apply existsb_exists in Ex as ([k' v'] & Hin & Ek). simpl in Ek. apply Z.eqb_eq in Ek. subst.
      apply (Hacc s v k (or_introl eq_refl) E). apply (in_map fst) in Hin. exact Hin. }
    unfold cset. rewrite Hk'. inversion Hnd as [|? ? Hnin Hnd']; subst.
    destruct (IH (acc ++ [(k, v)])) as (c & Ec & F); auto.
    + intros; apply (Hs s0 v0); right; assumption.
    + intros s' v' k' Hin Ek' Hk''. rewrite map_app, in_app_iff in Hk''. destruct Hk'' as [Hk''|[Hk''|[]]].
      * exact (Hacc s' v' k' (or_intror Hin) Ek' Hk'').
      * simpl in Hk''. subst k'. destruct (Hs s' v' (or_intror Hin)) as [L' D'].
        destruct (basis_value s' e) as (k2 & E2 & Hk2 & S2); [destruct s'; [simpl in L'; lia|discriminate]|exact D'|].
        rewrite Ek' in E2. injection E2 as <-. rewrite L' in S2. try rewrite L in S. assert (s = s') by (eapply spells_unique; eassumption). subst s'.
        apply Hnin. apply (in_map fst) in Hin. exact Hin.
    + exists ((k, v) :: c). rewrite Ec, <- app_assoc. split; [reflexivity|]. constructor; [auto|exact F].
Qed.

(** samples_to_integers keeps every count (keys of one length, as produced by sampling). *)
Theorem C12_samples_to_integers : forall samples n e, (1 <= n)%nat ->
  (forall s v, In (s, v) samples -> length s = n /\ Forall is_digit s) -> NoDup (map fst samples) ->
  exists c, samples_to_integers samples e = Some c /\ total c = total samples /\ NoDup (map fst c) /\
    (forall s v, In (s, v) samples -> exists k, basis_to_int s e = Some k /\ In (k, v) c) /\
    (forall k v, In (k, v) c -> exists s, basis_to_int s e = Some k /\ In (s, v) samples).
Proof.
  intros samples n e Hn Hs Hnd. destruct (samples_aux e n Hn samples [] Hs Hnd) as (c & E & F); [intros; intros []|].
  exists c. split; [exact E|]. split; [|split; [|split]].
  - clear -F. induction F as [|[s v] [k w] samples c [_ H] F IH]; [reflexivity|]. simpl in *. rewrite IH, H. reflexivity.
  - clear E. induction F as [|[s v] [k w] samples c [H1 H2] F IH]; [constructor|]. simpl in *. inversion Hnd as [|? ? Hnin Hnd']; subst.
    constructor; [|apply IH; auto; intros; eapply Hs; right; eassumption].
    intros Hin. apply in_map_iff in Hin as ([k' v'] & Ek & Hin). simpl in Ek. subst k'.
    assert (exists s', basis_to_int s' e = Some k /\ In (s', v') samples) as (s' & E' & Hin').
    { clear -F Hin. induction F as [|[s v] [k2 w] samples c [H1 H2] F IH]; [destruct Hin|]. destruct Hin as [Hin|Hin].
      - injection Hin as -> ->. simpl in *. subst. exists s. split; [assumption|left; reflexivity].
      - destruct (IH Hin) as (s' & H & H'). exists s'. split; [assumption|right; assumption]. }
    destruct (Hs s v (or_introl eq_refl)) as [L D]. destruct (Hs s' v' (or_intror Hin')) as [L' D'].
    destruct (basis_value s e) as (k1 & E1 & _ & S1); [destruct s; [simpl in L; lia|discriminate]|exact D|].
    destruct (basis_value s' e) as (k2 & E2 & _ & S2); [destruct s'; [simpl in L'; lia|discriminate]|exact D'|].
    rewrite H1 in E1. injection E1 as <-. rewrite E' in E2. injection E2 as <-. rewrite L in S1. rewrite L' in S2.
    assert (s = s') by (eapply spells_unique; [exact S1|]; congruence || exact S2). subst s'. apply Hnin. apply (in_map fst) in Hin'. exact Hin'.
  - clear -F. intros s v Hin. induction F as [|[s' v'] [k w] samples c [H1 H2] F IH]; [destruct Hin|]. simpl in *. destruct Hin as [Hin|Hin].
    + injection Hin as -> ->. subst. eauto.
    + destruct (IH Hin) as (k' & A & B). eauto.
  - clear -F. intros k v Hin. induction F as [|[s' v'] [k' w] samples c [H1 H2] F IH]; [destruct Hin|]. simpl in *. destruct Hin as [Hin|Hin].
    + injection Hin as -> ->. subst. eauto.
    + destruct (IH Hin) as (s & A & B). eauto.
Qed.

(** Strings of different lengths can collide, and then counts are lost. *)
Theorem C12_samples_mixed_lengths_refuted : exists samples c, NoDup (map fst samples) /\ (forall s v, In (s, v) samples -> Forall is_digit s /\ s <> []) /\
  samples_to_integers samples Big = Some c /\ total c <> total samples.
Proof.
  exists [([C1], 2%Z); ([C0; C1], 3%Z)], [(1%Z, 3%Z)]. split; [repeat constructor; simpl; intuition congruence|]. split.
  - simpl. intros s v [H|[H|[]]]; injection H as <- <-; split; try discriminate; repeat constructor; discriminate.
  - split; [reflexivity|]. discriminate.
Qed.

Example C12_witness : int_to_basis 6 (Some 4%Z) Little = Some [C0; C1; C1; C0] /\ int_to_basis 4 (Some 3%Z) Little = Some [C0; C0; C1] /\
  basis_to_int [C1; C1; C0] Big = Some 6%Z /\ int_to_basis 8 (Some 3%Z) Big = None /\
  samples_to_integers [([C1; C0], 7%Z); ([C0; C1], 5%Z)] Little = Some [(1%Z, 7%Z); (2%Z, 5%Z)].
Proof. repeat split. Qed.

Print Assumptions C12_int_to_basis.
Print Assumptions C12_basis_to_int.
Print Assumptions C12_too_large.
Print Assumptions C12_negative_refuted.
Print Assumptions C12_default_width.
Print Assumptions C12_nqubits_to_basis.
Print Assumptions C12_zero_qubits_refuted.
Print Assumptions C12_samples_to_integers.
Print Assumptions C12_samples_mixed_lengths_refuted.
