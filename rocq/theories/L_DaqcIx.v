(** The flat index of a pair of qubits, and sums over pairs. *)
From Coq Require Import String Reals ZArith List Arith Bool Lia Lra Permutation.
From Coquelicot Require Import Coquelicot.
From Coq Require Import List.
From Verif Require Import S_Ops M_QubitSupport M_Block M_BlockOps M_PSR S_PSR P_PSR P_Qft P_Hamiltonians M_Daqc.
Import ListNotations.
Open Scope R_scope.
Open Scope nat_scope.

Fixpoint off (n i : nat) : nat := match i with O => O | S j => off n j + (n - 1 - j) end.
Definition pix (n : nat) (p : nat * nat) : nat := off n (fst p) + (snd p - fst p - 1).
Lemma half_even a b : a = 2 * b -> a / 2 = b.
Proof. intros ->. rewrite Nat.mul_comm. apply Nat.div_mul. lia. Qed.
Lemma tri_double a : exists t, a * (a + 1) = 2 * t.
Proof. induction a as [|a [t IH]]; [exists 0; reflexivity|]. exists (t + S a). lia. Qed.
Lemma off_formula n i : i <= n -> 2 * off n i + i * (i - 1) = 2 * (i * (n - 1)).
Proof.
  induction i as [|i IH]; intros H; [reflexivity|]. cbn [off]. specialize (IH ltac:(lia)).
  assert (n = (n - 1 - i) + i + 1) by lia. remember (n - 1 - i) as d. rewrite H0 in *. clear Heqd H0. replace (d + i + 1 - 1) with (d + i) in * by lia.
  destruct i as [|i]; [simpl in *; lia|]. replace (S (S i) - 1) with (S i) by lia. replace (S i - 1) with i in IH by lia. nia.
Qed.
Lemma flat_off n : flat_size n = off n n.
Proof.
  unfold flat_size. apply half_even. pose proof (off_formula n n (le_n n)). nia.
Qed.
Lemma off_mono n i j : i <= j -> off n i <= off n j.
Proof. induction 1; cbn [off]; lia. Qed.
Lemma pix_lt n j k : j < k < n -> pix n (j, k) < flat_size n.
Proof.
  intros H. rewrite flat_off. unfold pix. cbn [fst snd]. pose proof (off_mono n (S j) n ltac:(lia)) as M. cbn [off] in M. lia.
Qed.
Lemma ix_map_z n j k : j < k < n -> (ix_map n (j + 1) (k + 1) - 1 = Z.of_nat (pix n (j, k)))%Z.
Proof.
  intros H. destruct (tri_double (j + 1)) as [t T]. unfold ix_map. rewrite (half_even _ t T). unfold pix. cbn [fst snd]. pose proof (off_formula n j ltac:(lia)) as F.
  rewrite (Nat2Z.inj_add (off n j)), (Nat2Z.inj_sub (k - j)), (Nat2Z.inj_sub k) by lia. generalize dependent (off n j). intros o F.
  assert (F' : (2 * Z.of_nat o + Z.of_nat j * (Z.of_nat j - 1) = 2 * (Z.of_nat j * (Z.of_nat n - 1)))%Z).
  { destruct j as [|j]; [simpl in F; lia|]. apply (f_equal Z.of_nat) in F. rewrite !Nat2Z.inj_add, !Nat2Z.inj_mul, !Nat2Z.inj_sub in F by lia. exact F. }
  apply (f_equal Z.of_nat) in T. rewrite !Nat2Z.inj_mul, !Nat2Z.inj_add in T. rewrite !Nat2Z.inj_add. change (Z.of_nat 2) with 2%Z in *. change (Z.of_nat 1) with 1%Z in *.
  generalize dependent (Z.of_nat o). generalize dependent (Z.of_nat t). generalize (Z.of_nat j), (Z.of_nat n), (Z.of_nat k). intros a b c u T v F'. clear - T F'.
  apply (Z.mul_cancel_l _ _ 2); [discriminate|]. replace (2 * (v + (c - a - 1)))%Z with (2 * v + 2 * (c - a - 1))%Z by ring.
  replace (2 * (b * (a + 1 - 1) - u + (c + 1) - 1))%Z with (2 * b * a - 2 * u + 2 * c)%Z by ring. rewrite <- T. replace (2 * v)%Z with (2 * (a * (b - 1)) - a * (a - 1))%Z by (rewrite <- F'; ring). ring.
Qed.
Lemma tpos_ok len i : i < len -> tpos len (Z.of_nat i) = Some i.
Proof.
  intros L. unfold tpos. destruct (0 <=? Z.of_nat i)%Z eqn:A; [|apply Z.leb_gt in A; lia].
  destruct (Z.of_nat i <? Z.of_nat len)%Z eqn:B; [rewrite Nat2Z.id; reflexivity|apply Z.ltb_ge in B; lia].
Qed.
Lemma ix_pix n j k : j < k < n -> tpos (flat_size n) (ix_map n (j + 1) (k + 1) - 1) = Some (pix n (j, k)).
Proof. intros H. rewrite ix_map_z by exact H. apply tpos_ok, pix_lt, H. Qed.
Lemma in_pairs n j k : In (j, k) (ordered_pairs n) <-> j < k < n.
Proof.
  unfold ordered_pairs. rewrite in_flat_map. split.
  - intros (i & Hi & I). apply in_seq in Hi. apply in_map_iff in I as (m & E & Hm). apply in_seq in Hm. injection E as <- <-. lia.
  - intros H. exists j. split; [apply in_seq; lia|]. apply in_map_iff. exists k. split; [reflexivity|apply in_seq; lia].
Qed.
Lemma pairs_index n : map (pix n) (ordered_pairs n) = seq 0 (flat_size n).
Proof.
  rewrite flat_off. unfold ordered_pairs.
  assert (G : forall m, m <= n -> map (pix n) (flat_map (fun i => map (pair i) (seq (S i) (n - S i))) (seq 0 m)) = seq 0 (off n m)).
  { induction m as [|m IH]; intros H; [reflexivity|]. rewrite seq_S, flat_map_app, map_app, IH by lia. cbn [flat_map off]. rewrite app_nil_r.
    rewrite seq_app. f_equal. rewrite map_map. simpl (0 + m). simpl (0 + off n m). replace (n - 1 - m) with (n - S m) by lia. generalize (n - S m). intros d.
    assert (H0 : forall d s, map (fun k => pix n (m, k)) (seq (S m + s) d) = seq (off n m + s) d).
    { induction d0 as [|d0 IHd]; intros s; [reflexivity|]. cbn [seq map]. f_equal; [unfold pix; cbn [fst snd]; lia|]. specialize (IHd (S s)). rewrite !Nat.add_succ_r in IHd. exact IHd. }
    specialize (H0 d 0). rewrite !Nat.add_0_r in H0. exact H0. }
  apply G, le_n.
Qed.
Lemma pairs_nodup n : NoDup (ordered_pairs n).
Proof. apply (NoDup_map_inv (pix n)). rewrite pairs_index. apply seq_NoDup. Qed.
Lemma pix_inj n p q : In p (ordered_pairs n) -> In q (ordered_pairs n) -> pix n p = pix n q -> p = q.
Proof.
  intros Hp Hq E. destruct (In_nth _ _ (0, 0) Hp) as (i & Hi & <-). destruct (In_nth _ _ (0, 0) Hq) as (j & Hj & <-).
  assert (L : List.length (ordered_pairs n) = flat_size n) by (rewrite <- (map_length (pix n)), pairs_index, seq_length; reflexivity).
  assert (A : forall i, i < flat_size n -> pix n (nth i (ordered_pairs n) (0, 0)) = i).
  { intros k Hk. rewrite <- (map_nth (pix n)). rewrite pairs_index. rewrite (nth_indep _ _ 0) by (rewrite seq_length; exact Hk). rewrite seq_nth by exact Hk. reflexivity. }
  rewrite !A in E by lia. rewrite E. reflexivity.
Qed.
Lemma pairs_length n : List.length (ordered_pairs n) = flat_size n.
Proof. rewrite <- (map_length (pix n)), pairs_index, seq_length; reflexivity. Qed.
Lemma in_pairs_pix n p : In p (ordered_pairs n) -> pix n p < flat_size n.
Proof. destruct p. intros I. apply pix_lt, in_pairs, I. Qed.
(** A flat list read at a pair. *)
Definition at_pair (n : nat) (l : list R) (p : nat * nat) : R := nth (pix n p) l 0%R.
Lemma flat_list n l : List.length l = flat_size n -> l = map (at_pair n l) (ordered_pairs n).
Proof.
  intros H. unfold at_pair. rewrite <- (map_map (pix n) (fun i => nth i l 0%R)), pairs_index, <- H. clear H.
  induction l as [|a l IH]; [reflexivity|]. cbn [List.length seq map nth]. f_equal. rewrite <- seq_shift, map_map. exact IH.
Qed.
Lemma at_pair_map n (f : nat * nat -> R) p : In p (ordered_pairs n) -> at_pair n (map f (ordered_pairs n)) p = f p.
Proof.
  intros I. unfold at_pair. destruct (In_nth _ _ (0, 0) I) as (i & Hi & E). rewrite pairs_length in Hi.
  assert (A : pix n p = i).
  { rewrite <- E, <- (map_nth (pix n)), pairs_index. rewrite (nth_indep _ _ 0) by (rewrite seq_length; exact Hi). rewrite seq_nth by exact Hi. reflexivity. }
  rewrite A, (nth_indep _ _ (f (0, 0))) by (rewrite map_length, pairs_length; exact Hi). rewrite map_nth, E. reflexivity.
Qed.
(** The loops visit every pair once. *)
Definition dec1 (p : nat * nat) : nat * nat := (fst p - 1, snd p - 1).
Lemma loop_perm n : Permutation (map dec1 (loop_pairs n)) (ordered_pairs n).
Proof.
  assert (M : forall p, In p (loop_pairs n) <-> 1 <= fst p < snd p /\ snd p <= n).
  { intros [a m]. unfold loop_pairs. rewrite in_flat_map. cbn [fst snd]. split.
    - intros (i & Hi & I). apply in_seq in Hi. apply in_map_iff in I as (x & E & Hx). apply in_seq in Hx. injection E as <- <-. lia.
    - intros H. exists m. split; [apply in_seq; lia|]. apply in_map_iff. exists a. split; [reflexivity|apply in_seq; lia]. }
  assert (ND : NoDup (loop_pairs n)).
  { unfold loop_pairs. generalize 2. generalize (n - 1). induction n0 as [|d IH]; intros s; [constructor|]. cbn [seq flat_map].
    assert (Q : forall a b : list (nat * nat), NoDup a -> NoDup b -> (forall p, In p a -> ~ In p b) -> NoDup (a ++ b)).
    { induction a as [|p a IHa]; intros b Na Nb D; [exact Nb|]. inversion Na; subst. simpl. constructor; [rewrite in_app_iff; intros [I|I]; [contradiction|exact (D p (or_introl eq_refl) I)]|]. apply IHa; [assumption|assumption|]. intros q I. apply D. right. exact I. }
    apply Q; [|apply IH|].
    - apply FinFun.Injective_map_NoDup; [intros a b E; congruence|apply seq_NoDup].
    - intros p I J. apply in_map_iff in I as (x & <- & _). apply in_flat_map in J as (m & Hm & J). apply in_map_iff in J as (y & E & _). apply in_seq in Hm. injection E as _ E. lia. }
  apply NoDup_Permutation; [|apply pairs_nodup|].
  - apply (NoDup_map_inv (fun p => (fst p + 1, snd p + 1))). rewrite map_map.
    rewrite (map_ext_in _ (fun p => p)); [rewrite map_id; exact ND|]. intros [a m] I. apply M in I. unfold dec1. cbn [fst snd] in *. f_equal; lia.
  - intros [j k]. rewrite in_pairs, in_map_iff. split.
    + intros ([a m] & E & I). apply M in I. unfold dec1 in E. cbn [fst snd] in *. injection E as <- <-. lia.
    + intros H. exists (j + 1, k + 1). split; [unfold dec1; cbn [fst snd]; f_equal; lia|]. apply M. cbn [fst snd]. lia.
Qed.
Lemma loop_in n a m : In (a, m) (loop_pairs n) -> 1 <= a < m /\ m <= n.
Proof.
  unfold loop_pairs. rewrite in_flat_map. intros (i & Hi & I). apply in_seq in Hi. apply in_map_iff in I as (x & E & Hx). apply in_seq in Hx. injection E as <- <-. lia.
Qed.
Lemma loop_ix n p : In p (loop_pairs n) -> tpos (flat_size n) (ix_map n (fst p) (snd p) - 1) = Some (pix n (dec1 p)).
Proof.
  destruct p as [a m]. intros I. apply loop_in in I. unfold dec1. cbn [fst snd]. rewrite <- ix_pix by lia. f_equal. f_equal. f_equal; lia.
Qed.
