(** The linear system of the DAQC transform. *)
From Coq Require Import String Reals ZArith List Arith Bool Lia Lra Permutation.
From Coquelicot Require Import Coquelicot.
From Coq Require Import List.
From Verif Require Import S_Ops M_QubitSupport M_Block M_BlockOps M_PSR S_PSR P_PSR P_Qft P_Hamiltonians M_Daqc L_DaqcIx.
Import ListNotations.
Open Scope nat_scope.
Open Scope R_scope.

(** * The sign matrix *)
Definition touches (j : nat) (p : nat * nat) : bool := Nat.eqb j (fst p) || Nat.eqb j (snd p).
Definition ind (j : nat) (p : nat * nat) : R := if touches j p then 1 else 0.
Definition zsgn (j : nat) (p : nat * nat) : R := if touches j p then -1 else 1.
Definition sgn (p q : nat * nat) : R := zsgn (fst q) p * zsgn (snd q) p.
Lemma zsgn_ind j p : zsgn j p = 1 - 2 * ind j p.
Proof. unfold zsgn, ind. destruct (touches j p); ring. Qed.
Lemma k_d_sym a b : k_d a b = k_d b a.
Proof. unfold k_d. rewrite Nat.eqb_sym. reflexivity. Qed.
Lemma pow_kd j p : (fst p <> snd p)%nat -> (-1) ^ (k_d (fst p) j + k_d (snd p) j) = zsgn j p.
Proof.
  intros H. unfold zsgn, touches, k_d. rewrite !(Nat.eqb_sym j). destruct (Nat.eqb (fst p) j) eqn:A, (Nat.eqb (snd p) j) eqn:B; simpl; try ring.
  apply Nat.eqb_eq in A, B. congruence.
Qed.
Lemma matrix_sgn j k n m : (n <> m)%nat -> matrix_M_ix j k n m = sgn (n, m) (j, k).
Proof.
  intros H. unfold matrix_M_ix, sgn. cbn [fst snd]. rewrite <- (pow_kd j (n, m) H), <- (pow_kd k (n, m) H). cbn [fst snd]. rewrite <- pow_add. f_equal. lia.
Qed.
Lemma sgn_dec1 p q : (1 <= fst p < snd p)%nat -> (1 <= fst q < snd q)%nat -> sgn p q = sgn (dec1 p) (dec1 q).
Proof.
  intros Hp Hq. unfold sgn, zsgn, touches, dec1. cbn [fst snd].
  assert (E : forall a b, (1 <= a)%nat -> (1 <= b)%nat -> Nat.eqb (a - 1) (b - 1) = Nat.eqb a b).
  { intros a b Ha Hb. destruct (Nat.eqb_spec a b); [subst; apply Nat.eqb_refl|apply Nat.eqb_neq; lia]. }
  rewrite !E by lia. reflexivity.
Qed.
Lemma sgn_sym p q : (fst p < snd p)%nat -> (fst q < snd q)%nat -> sgn p q = sgn q p.
Proof.
  intros Hp Hq. unfold sgn, zsgn, touches. rewrite !(Nat.eqb_sym (fst q)), !(Nat.eqb_sym (snd q)).
  destruct (Nat.eqb_spec (fst p) (fst q)), (Nat.eqb_spec (fst p) (snd q)), (Nat.eqb_spec (snd p) (fst q)), (Nat.eqb_spec (snd p) (snd q)); cbn [orb]; try ring; exfalso; lia.
Qed.

Definition entry_ok (n : nat) (S : nat * nat -> nat * nat -> Prop) (M : nat -> nat -> R) : Prop :=
  forall p q, In p (ordered_pairs n) -> In q (ordered_pairs n) -> S p q -> M (pix n p) (pix n q) = sgn p q.
Lemma entry_set n S M p0 q0 : In p0 (ordered_pairs n) -> In q0 (ordered_pairs n) -> entry_ok n S M ->
  entry_ok n (fun p q => S p q \/ (p = p0 /\ q = q0)) (set_entry M (pix n p0) (pix n q0) (sgn p0 q0)).
Proof.
  intros Hp0 Hq0 H p q Hp Hq K. unfold set_entry. destruct (Nat.eqb_spec (pix n p) (pix n p0)) as [A|A]; cbn [andb].
  - destruct (Nat.eqb_spec (pix n q) (pix n q0)) as [B|B].
    + apply (pix_inj n) in A; [|assumption..]. apply (pix_inj n) in B; [|assumption..]. subst. reflexivity.
    + destruct K as [K|[-> ->]]; [apply H; assumption|contradiction].
  - destruct K as [K|[-> ->]]; [apply H; assumption|contradiction].
Qed.
Lemma dec1_in n p : In p (loop_pairs n) -> In (dec1 p) (ordered_pairs n).
Proof. intros I. apply (Permutation_in _ (loop_perm n)). apply in_map. exact I. Qed.
Lemma build_matrix_ok n : exists M, build_matrix_M n = Some M /\ forall p q, In p (ordered_pairs n) -> In q (ordered_pairs n) -> M (pix n p) (pix n q) = sgn p q.
Proof.
  unfold build_matrix_M.
  set (step := fun jk acc nm => match acc, tpos (flat_size n) (ix_map n (fst nm) (snd nm) - 1), tpos (flat_size n) (ix_map n (fst jk) (snd jk) - 1) with
      | Some M, Some al, Some be => Some (set_entry M al be (matrix_M_ix (fst jk) (snd jk) (fst nm) (snd nm)))
      | _, _, _ => None end).
  change (exists M, fold_left (fun acc jk => fold_left (step jk) (loop_pairs n) acc) (loop_pairs n) (Some (fun _ _ => 0)) = Some M /\ forall p q, In p (ordered_pairs n) -> In q (ordered_pairs n) -> M (pix n p) (pix n q) = sgn p q).
  assert (Inner : forall jk, In jk (loop_pairs n) -> forall l M S, (forall x, In x l -> In x (loop_pairs n)) -> entry_ok n S M ->
     exists M', fold_left (step jk) l (Some M) = Some M' /\ entry_ok n (fun p q => S p q \/ (In p (map dec1 l) /\ q = dec1 jk)) M').
  { intros jk Hjk. induction l as [|nm l IH]; intros M S Hl E.
    - exists M. split; [reflexivity|]. intros p q Hp Hq [K|[[] _]]. apply E; assumption.
    - assert (Hnm := Hl nm (or_introl eq_refl)).
      cbn [fold_left]. unfold step at 2. rewrite (loop_ix n nm Hnm), (loop_ix n jk Hjk).
      destruct nm as [a m]. destruct jk as [j k]. pose proof (loop_in _ _ _ Hnm) as B1. pose proof (loop_in _ _ _ Hjk) as B2. cbn [fst snd].
      rewrite matrix_sgn by lia. rewrite sgn_dec1 by (cbn [fst snd]; lia).
      destruct (IH _ _ (fun x I => Hl x (or_intror I)) (entry_set n S M (dec1 (a, m)) (dec1 (j, k)) (dec1_in _ _ Hnm) (dec1_in _ _ Hjk) E)) as (M' & F & E').
      exists M'. split; [exact F|]. intros p q Hp Hq K. apply E'; [assumption..|]. destruct K as [K|[[K|K] ->]]; [left; left; exact K|left; right; auto|right; auto]. }
  assert (Outer : forall l M S, (forall x, In x l -> In x (loop_pairs n)) -> entry_ok n S M ->
     exists M', fold_left (fun acc jk => fold_left (step jk) (loop_pairs n) acc) l (Some M) = Some M' /\ entry_ok n (fun p q => S p q \/ (In p (map dec1 (loop_pairs n)) /\ In q (map dec1 l))) M').
  { induction l as [|jk l IH]; intros M S Hl E.
    - exists M. split; [reflexivity|]. intros p q Hp Hq [K|[_ []]]. apply E; assumption.
    - cbn [fold_left]. destruct (Inner jk (Hl jk (or_introl eq_refl)) (loop_pairs n) M S (fun x I => I) E) as (M1 & F1 & E1). rewrite F1.
      destruct (IH M1 _ (fun x I => Hl x (or_intror I)) E1) as (M' & F & E'). exists M'. split; [exact F|].
      intros p q Hp Hq K. apply E'; [assumption..|]. destruct K as [K|[K1 [K2|K2]]]; [left; left; exact K|left; right; split; [exact K1|symmetry; exact K2]|right; auto]. }
  destruct (Outer (loop_pairs n) (fun _ _ => 0) (fun _ _ => False) (fun x I => I) (fun p q _ _ F => match F with end)) as (M & F & E).
  exists M. split; [exact F|]. intros p q Hp Hq. apply E; [assumption..|]. right. split; apply (Permutation_in _ (Permutation_sym (loop_perm n))); assumption.
Qed.

(** * Sums over pairs *)
Definition psum (n : nat) (h : nat * nat -> R) : R := rsum (map h (ordered_pairs n)).
Lemma psum_ext n h h' : (forall p, In p (ordered_pairs n) -> h p = h' p) -> psum n h = psum n h'.
Proof. apply rsum_ext. Qed.
Lemma psum_plus n h h' : psum n (fun p => h p + h' p) = psum n h + psum n h'.
Proof. apply rsum_plus. Qed.
Lemma psum_scal n k h : psum n (fun p => k * h p) = k * psum n h.
Proof. apply rsum_scal. Qed.
Lemma rsum_swap {A B} (f : A -> B -> R) l m : rsum (map (fun a => rsum (map (f a) m)) l) = rsum (map (fun b => rsum (map (fun a => f a b) l)) m).
Proof.
  induction l as [|a l IH]; cbn [map rsum]; [rewrite rsum_zero; [reflexivity|reflexivity]|]. rewrite IH, <- rsum_plus. reflexivity.
Qed.
Lemma rsum_delta {A} (eqb : A -> A -> bool) (eqb_ok : forall a b, eqb a b = true <-> a = b) (f : A -> R) l a : NoDup l -> In a l -> rsum (map (fun b => (if eqb a b then 1 else 0) * f b) l) = f a.
Proof.
  intros N. induction N as [|b l Nb N IH]; intros I; [contradiction|]. cbn [map rsum]. destruct (eqb a b) eqn:E.
  - apply eqb_ok in E. subst. rewrite rsum_zero; [ring|]. intros x Ix. destruct (eqb b x) eqn:E; [|ring]. apply eqb_ok in E. subst. contradiction.
  - destruct I as [->|I]; [rewrite (proj2 (eqb_ok a a) eq_refl) in E; discriminate|]. rewrite IH by exact I. ring.
Qed.
(** Sum over the qubits. *)
Definition qsum (n : nat) (w : nat -> R) : R := rsum (map w (seq 0 n)).
Lemma qsum_delta n j w : (j < n)%nat -> rsum (map (fun k => (if Nat.eqb j k then 1 else 0) * w k) (seq 0 n)) = w j.
Proof. intros H. apply (rsum_delta Nat.eqb); [intros a b; apply Nat.eqb_eq|apply seq_NoDup|apply in_seq; lia]. Qed.
Lemma ind_split j p : (fst p <> snd p)%nat -> ind j p = (if Nat.eqb (fst p) j then 1 else 0) + (if Nat.eqb (snd p) j then 1 else 0).
Proof.
  intros H. unfold ind, touches. rewrite !(Nat.eqb_sym j). destruct (Nat.eqb_spec (fst p) j), (Nat.eqb_spec (snd p) j); cbn [orb]; try ring. congruence.
Qed.
Lemma ind_weights n p w : In p (ordered_pairs n) -> rsum (map (fun k => ind k p * w k) (seq 0 n)) = w (fst p) + w (snd p).
Proof.
  destruct p as [a b]. intros I. apply in_pairs in I. cbn [fst snd].
  rewrite (rsum_ext _ (fun k => (if Nat.eqb a k then 1 else 0) * w k + (if Nat.eqb b k then 1 else 0) * w k)).
  - rewrite rsum_plus, !qsum_delta by lia. reflexivity.
  - intros k _. rewrite ind_split by (cbn [fst snd]; lia). cbn [fst snd]. ring.
Qed.
Lemma ind_weights1 n p : In p (ordered_pairs n) -> rsum (map (fun k => ind k p) (seq 0 n)) = 2.
Proof. intros I. rewrite (rsum_ext _ (fun k => ind k p * 1)) by (intros; ring). rewrite (ind_weights n p (fun _ => 1) I). ring. Qed.
Definition peqb (p q : nat * nat) : bool := Nat.eqb (fst p) (fst q) && Nat.eqb (snd p) (snd q).
Lemma peqb_ok p q : peqb p q = true <-> p = q.
Proof. destruct p, q. unfold peqb. cbn [fst snd]. rewrite andb_true_iff, !Nat.eqb_eq. split; [intros [-> ->]; reflexivity|intros E; injection E as -> ->; auto]. Qed.
Lemma ind_pair n j k h : In (j, k) (ordered_pairs n) -> psum n (fun p => ind j p * ind k p * h p) = h (j, k).
Proof.
  intros I. unfold psum. rewrite (rsum_ext _ (fun p => (if peqb (j, k) p then 1 else 0) * h p)).
  - apply (rsum_delta peqb peqb_ok); [apply pairs_nodup|exact I].
  - intros [a b] J. apply in_pairs in I, J. f_equal. unfold ind, touches, peqb. cbn [fst snd].
    destruct (Nat.eqb_spec j a), (Nat.eqb_spec j b), (Nat.eqb_spec k a), (Nat.eqb_spec k b); cbn [orb andb]; try ring; exfalso; lia.
Qed.
Definition row (n : nat) (h : nat * nat -> R) (j : nat) : R := psum n (fun p => ind j p * h p).
Lemma row_total n h : qsum n (row n h) = 2 * psum n h.
Proof.
  unfold qsum, row, psum. rewrite rsum_swap, <- rsum_scal. apply rsum_ext. intros p I.
  rewrite (rsum_ext _ (fun k => h p * ind k p)) by (intros; ring). rewrite rsum_scal, ind_weights1 by exact I. ring.
Qed.
Lemma ind2 n j k : (j < n)%nat -> (k < n)%nat -> j <> k -> psum n (fun p => ind j p * ind k p) = 1.
Proof.
  intros Hj Hk H. destruct (Nat.lt_ge_cases j k).
  - rewrite (psum_ext n _ (fun p => ind j p * ind k p * 1)) by (intros; ring). apply (ind_pair n j k (fun _ => 1)). apply in_pairs. lia.
  - rewrite (psum_ext n _ (fun p => ind k p * ind j p * 1)) by (intros; ring). apply (ind_pair n k j (fun _ => 1)). apply in_pairs. lia.
Qed.
Lemma ind_sq j p : ind j p * ind j p = ind j p.
Proof. unfold ind. destruct (touches j p); ring. Qed.
Lemma degree n j : (j < n)%nat -> psum n (ind j) = INR n - 1.
Proof.
  intros H.
  assert (A : 2 * psum n (ind j) = qsum n (fun k => psum n (fun p => ind j p * ind k p))).
  { unfold qsum, psum. rewrite rsum_swap, <- rsum_scal. apply rsum_ext. intros p I. rewrite rsum_scal, ind_weights1 by exact I. ring. }
  assert (B : qsum n (fun k => psum n (fun p => ind j p * ind k p)) = qsum n (fun k => 1 + (if Nat.eqb j k then 1 else 0) * (psum n (ind j) - 1))).
  { apply rsum_ext. intros k Hk. apply in_seq in Hk. destruct (Nat.eqb_spec j k) as [<-|Hjk].
    - rewrite (psum_ext n _ (ind j)) by (intros; apply ind_sq). ring.
    - rewrite ind2 by (try lia; exact Hjk). ring. }
  unfold qsum in B at 2. rewrite rsum_plus in B. rewrite (qsum_delta n j (fun _ => psum n (ind j) - 1) H) in B.
  assert (D : rsum (map (fun _ : nat => 1) (seq 0 n)) = INR n).
  { clear. generalize 0%nat. induction n as [|m IH]; intros s; [reflexivity|]. cbn [seq map rsum]. rewrite IH, S_INR. ring. }
  rewrite D in B. lra.
Qed.
Lemma row_weights n w j : (j < n)%nat -> row n (fun p => w (fst p) + w (snd p)) j = (INR n - 2) * w j + qsum n w.
Proof.
  intros H. unfold row.
  assert (A : psum n (fun p => ind j p * (w (fst p) + w (snd p))) = qsum n (fun k => psum n (fun p => ind j p * ind k p) * w k)).
  { unfold qsum, psum. rewrite (rsum_ext _ (fun p => rsum (map (fun k => ind j p * ind k p * w k) (seq 0 n)))).
    - rewrite rsum_swap. apply rsum_ext. intros k _. rewrite Rmult_comm, <- rsum_scal. apply rsum_ext. intros p _. ring.
    - intros p I. rewrite <- (ind_weights n p w I), <- rsum_scal. apply rsum_ext. intros k _. ring. }
  rewrite A. rewrite <- (qsum_delta n j (fun k => (INR n - 2) * w k) H). unfold qsum. rewrite <- rsum_plus. apply rsum_ext. intros k Hk. apply in_seq in Hk.
  destruct (Nat.eqb_spec j k) as [<-|Hjk].
  - rewrite (psum_ext n _ (ind j)) by (intros; apply ind_sq). rewrite degree by exact H. ring.
  - rewrite ind2 by (try lia; exact Hjk). ring.
Qed.
(** * The solution *)
Lemma sgn_apply n t q : In q (ordered_pairs n) -> psum n (fun p => sgn p q * t p) = psum n t - 2 * row n t (fst q) - 2 * row n t (snd q) + 4 * t q.
Proof.
  destruct q as [j k]. intros I. cbn [fst snd]. rewrite <- (ind_pair n j k t I). unfold row.
  rewrite (psum_ext n _ (fun p => t p + (-2) * (ind j p * t p) + (-2) * (ind k p * t p) + 4 * (ind j p * ind k p * t p))).
  - rewrite !psum_plus, !psum_scal. ring.
  - intros p _. unfold sgn. cbn [fst snd]. rewrite !zsgn_ind. ring.
Qed.
Definition disc (n : nat) : R := INR n * INR n - 9 * INR n + 16.
Lemma disc_neq n : disc n <> 0.
Proof.
  unfold disc. destruct (le_lt_dec 9 n) as [H|H].
  - apply le_INR in H. simpl in H. nra.
  - do 9 (destruct n as [|n]; [simpl; lra|]). lia.
Qed.
Lemma four_neq n : n <> 4%nat -> INR n - 4 <> 0.
Proof. intros H E. apply H. apply INR_eq. simpl. lra. Qed.
Definition tot_ (n : nat) (r : nat * nat -> R) : R := 2 * psum n r / disc n.
Definition row_ (n : nat) (r : nat * nat -> R) (j : nat) : R := ((INR n - 5) * tot_ n r - row n r j) / (2 * (INR n - 4)).
Definition times_ (n : nat) (r : nat * nat -> R) (p : nat * nat) : R := (r p - tot_ n r + 2 * row_ n r (fst p) + 2 * row_ n r (snd p)) / 4.
Lemma pair_bounds n p : In p (ordered_pairs n) -> (fst p < n)%nat /\ (snd p < n)%nat /\ (fst p < snd p)%nat.
Proof. destruct p. intros I. apply in_pairs in I. cbn [fst snd]. lia. Qed.
Lemma system_solution n r : n <> 4%nat -> forall q, In q (ordered_pairs n) -> psum n (fun p => sgn p q * times_ n r p) = r q.
Proof.
  intros H4 q I. pose proof (four_neq n H4) as F4. pose proof (disc_neq n) as Dn.
  assert (ST : qsum n (row_ n r) = 2 * tot_ n r).
  { unfold qsum, row_. rewrite (rsum_ext _ (fun j => (/ (2 * (INR n - 4)) * ((INR n - 5) * tot_ n r)) * 1 + (- / (2 * (INR n - 4))) * row n r j)) by (intros; field; exact F4).
    rewrite rsum_plus, !rsum_scal.
    assert (D : rsum (map (fun _ : nat => 1) (seq 0 n)) = INR n).
    { clear. generalize 0%nat. induction n as [|m IH]; intros s; [reflexivity|]. cbn [seq map rsum]. rewrite IH, S_INR. ring. }
    rewrite D. change (rsum (map (row n r) (seq 0 n))) with (qsum n (row n r)). rewrite row_total.
    assert (E : 2 * psum n r = disc n * tot_ n r) by (unfold tot_; field; exact Dn). rewrite E. unfold disc. field. exact F4. }
  assert (SR : forall j, (j < n)%nat -> row n (times_ n r) j = row_ n r j).
  { intros j Hj. unfold row at 1, times_.
    rewrite (psum_ext n _ (fun p => / 4 * (ind j p * r p) + (- (tot_ n r) / 4) * ind j p + / 2 * (ind j p * (row_ n r (fst p) + row_ n r (snd p))))) by (intros; field).
    rewrite !psum_plus, !psum_scal. change (psum n (fun p => ind j p * r p)) with (row n r j).
    change (psum n (fun p => ind j p * (row_ n r (fst p) + row_ n r (snd p)))) with (row n (fun p => row_ n r (fst p) + row_ n r (snd p)) j).
    rewrite row_weights by exact Hj. rewrite ST. change (psum n (fun p => ind j p)) with (psum n (ind j)). rewrite degree by exact Hj.
    assert (E : row n r j = (INR n - 5) * tot_ n r - 2 * (INR n - 4) * row_ n r j) by (unfold row_; field; exact F4). rewrite E. field. }
  assert (TT : psum n (times_ n r) = tot_ n r).
  { assert (E := row_total n (times_ n r)). assert (E' : qsum n (row n (times_ n r)) = qsum n (row_ n r)).
    { apply rsum_ext. intros j Hj. apply in_seq in Hj. apply SR. lia. }
    rewrite E', ST in E. lra. }
  destruct (pair_bounds n q I) as (B1 & B2 & _). rewrite sgn_apply by exact I. rewrite TT, !SR by assumption. unfold times_. field.
Qed.
Lemma system_unique n r t : n <> 4%nat -> (forall q, In q (ordered_pairs n) -> psum n (fun p => sgn p q * t p) = r q) -> forall p, In p (ordered_pairs n) -> t p = times_ n r p.
Proof.
  intros H4 H. pose proof (four_neq n H4) as F4. pose proof (disc_neq n) as Dn.
  assert (H' : forall q, In q (ordered_pairs n) -> r q = psum n t - 2 * row n t (fst q) - 2 * row n t (snd q) + 4 * t q) by (intros q I; rewrite <- H by exact I; apply sgn_apply; exact I).
  assert (ST : qsum n (row n t) = 2 * psum n t) by apply row_total.
  assert (R : forall j, (j < n)%nat -> row n r j = (INR n - 5) * psum n t - 2 * (INR n - 4) * row n t j).
  { intros j Hj. unfold row at 1. rewrite (psum_ext n _ (fun p => psum n t * ind j p + (-2) * (ind j p * (row n t (fst p) + row n t (snd p))) + 4 * (ind j p * t p))).
    - rewrite !psum_plus, !psum_scal. change (psum n (fun p => ind j p * (row n t (fst p) + row n t (snd p)))) with (row n (fun p => row n t (fst p) + row n t (snd p)) j).
      rewrite row_weights by exact Hj. rewrite ST. change (psum n (fun p => ind j p)) with (psum n (ind j)). rewrite degree by exact Hj. change (psum n (fun p => ind j p * t p)) with (row n t j). ring.
    - intros p I. rewrite H' by exact I. ring. }
  assert (RT : 2 * psum n r = disc n * psum n t).
  { rewrite <- row_total. unfold qsum. rewrite (rsum_ext _ (fun j => ((INR n - 5) * psum n t) * 1 + (-2 * (INR n - 4)) * row n t j)).
    - rewrite rsum_plus, !rsum_scal. change (rsum (map (row n t) (seq 0 n))) with (qsum n (row n t)). rewrite ST.
      assert (D : rsum (map (fun _ : nat => 1) (seq 0 n)) = INR n).
      { clear. generalize 0%nat. induction n as [|m IH]; intros s; [reflexivity|]. cbn [seq map rsum]. rewrite IH, S_INR. ring. }
      rewrite D. unfold disc. ring.
    - intros j Hj. apply in_seq in Hj. rewrite R by lia. ring. }
  assert (TT : tot_ n r = psum n t) by (unfold tot_; rewrite RT; field; exact Dn).
  assert (RR : forall j, (j < n)%nat -> row_ n r j = row n t j) by (intros j Hj; unfold row_; rewrite TT, R by exact Hj; field; exact F4).
  intros p I. destruct (pair_bounds n p I) as (B1 & B2 & _). unfold times_. rewrite TT, !RR, H' by assumption. field.
Qed.
