(** C23: qft builds the discrete Fourier transform. *)
From Coq Require Import String Reals List Arith Bool Lia Lra FunctionalExtensionality Permutation.
From Coquelicot Require Import Coquelicot.
From Coq Require Import List.
From Verif Require Import S_Sets S_Ops L_Ops M_QubitSupport M_Block S_Den L_Den L_Loc L_Adj L_Gates M_BlockOps L_Exp L_Tensor M_Transpile P_Operators P_Dagger M_PSR S_PSR P_PSR S_State L_Inner
  M_Measure P_Measure P_Tomography M_States P_States P_Unitary M_Qft.
Import ListNotations.
Open Scope R_scope.
Open Scope C_scope.

(** * Specification *)
(** Entry (r, c) of the n-qubit Fourier matrix: 2^(-n/2) exp(2 pi i r c / 2^n). *)
Definition dft (n r c : nat) : C := RtoC (1 / sqrt (2 ^ n)) * cis (2 * PI * (INR r * INR c) / 2 ^ n).

(** * Proofs *)
Definition b2r (b : bool) : R := if b then 1%R else 0%R.
Definition diag (f : asg -> R) : Op := fun psi x => cis (f x) * psi x.
Lemma diag_seq f g : seqop (diag f) (diag g) = diag (fun x => f x + g x)%R.
Proof. extensionality psi. extensionality x. unfold seqop, diag. rewrite <- cis_add. ring. Qed.
Lemma diag_0 f : (forall x, f x = 0%R) -> diag f = idop.
Proof. intros H. extensionality psi. extensionality x. unfold diag, idop. rewrite H, cis_0. ring. Qed.
Lemma diag_ext f g : (forall x, f x = g x) -> diag f = diag g.
Proof. intros H. extensionality psi. extensionality x. unfold diag. rewrite H. reflexivity. Qed.
Lemma diag_seqs {A} (f : A -> asg -> R) l : seqs (map (fun j => diag (f j)) l) = diag (fun x => rsum (map (fun j => f j x) l)).
Proof.
  induction l as [|a l IH]; cbn [map seqs]; [rewrite diag_0; reflexivity|]. rewrite IH, diag_seq. apply diag_ext. intros x. reflexivity.
Qed.
Lemma rsum_app a b : rsum (a ++ b) = (rsum a + rsum b)%R.
Proof. induction a as [|x a IH]; simpl; [ring|]. rewrite IH. ring. Qed.
Lemma rsum_perm a b : Permutation a b -> rsum a = rsum b.
Proof. induction 1; simpl; lra. Qed.
Lemma cphase_den rho a b e : a <> b -> den rho (CPHASE a b e) = diag (fun x => ang rho e * b2r (x a) * b2r (x b))%R.
Proof.
  intros H. extensionality psi. extensionality x. change (ctrlop [a] (gate1 b (rot_mat RPhase (ang rho e))) psi x = diag (fun x => ang rho e * b2r (x a) * b2r (x b))%R psi x).
  unfold ctrlop, diag. simpl. rewrite andb_true_r. destruct (x a); simpl b2r.
  - rewrite gate1_diag by reflexivity. destruct (x b); simpl; [rewrite !Rmult_1_r; reflexivity|]. rewrite Rmult_0_r, cis_0. reflexivity.
  - rewrite Rmult_0_r, Rmult_0_l, cis_0. ring.
Qed.
Lemma cis_period t (m : nat) : cis (2 * PI * (t + INR m)) = cis (2 * PI * t).
Proof.
  replace (2 * PI * (t + INR m))%R with (2 * PI * t + 2 * INR m * PI)%R by ring. unfold cis. rewrite cos_period, sin_period. reflexivity.
Qed.
Lemma H_entry a b : prim_mat PH a b = / RtoC (sqrt 2) * cis (2 * PI * (b2r a * (b2r b / 2))).
Proof.
  destruct a, b; simpl b2r.
  - replace (2 * PI * (1 * (1 / 2)))%R with PI by field. unfold cis. rewrite cos_PI, sin_PI. simpl. rewrite <- RtoC_inv by (pose proof (sqrt_lt_R0 2 ltac:(lra)); lra). apply Ceq; simpl; ring.
  - replace (2 * PI * (1 * (0 / 2)))%R with 0%R by field. rewrite cis_0. simpl. ring.
  - replace (2 * PI * (0 * (1 / 2)))%R with 0%R by field. rewrite cis_0. simpl. ring.
  - replace (2 * PI * (0 * (0 / 2)))%R with 0%R by field. rewrite cis_0. simpl. ring.
Qed.
Section Support.
  Variable n : nat.
  Variable s : list nat.
  Hypothesis Hn : NoDup s.
  Hypothesis Hl : length s = n.
  Definition sq (i : nat) : nat := nth i s 0%nat.
  Lemma sq_inj i j : (i < n)%nat -> (j < n)%nat -> sq i = sq j -> i = j.
  Proof. intros Hi Hj E. apply (proj1 (NoDup_nth s 0%nat) Hn i j); [rewrite Hl; exact Hi|rewrite Hl; exact Hj|exact E]. Qed.
  Lemma sq_error i : (i < n)%nat -> nth_error s i = Some (sq i).
  Proof. intros Hi. apply nth_error_nth'. rewrite Hl. exact Hi. Qed.
  Lemma map_sq : map sq (seq 0 n) = s.
  Proof.
    subst n. unfold sq. clear Hn. apply (nth_ext _ _ 0%nat 0%nat); [rewrite map_length, seq_length; reflexivity|]. intros i Hi. rewrite map_length, seq_length in Hi.
    rewrite (nth_indep _ _ (nth 0 s 0%nat)) by (rewrite map_length, seq_length; exact Hi). rewrite (map_nth (fun i => nth i s 0%nat)), seq_nth by exact Hi. reflexivity.
  Qed.
  (** The layer as an operator. *)
  Definition lay (sg : R) (l : nat) : Op := diag (fun x => rsum (map (fun j => sg * 2 * PI / 2 ^ (j - l + 1) * b2r (x (sq j)) * b2r (x (sq l)))%R (seq (l + 1) (n - (l + 1))))).
  Definition hop (l : nat) : Op := gate1 (sq l) (prim_mat PH).
  Lemma rots_den rho inverse l js : (l < n)%nat -> (forall j, In j js -> (j < n)%nat /\ j <> l) ->
    exists rs, osequence (map (fun j => match nth_error s j, nth_error s l with Some a, Some b => Some (CPHASE a b (qft_angle inverse l j)) | _, _ => None end) js) = Some rs /\
      dchain rho rs = seqs (map (fun j => diag (fun x => (if inverse then -1 else 1) * 2 * PI / 2 ^ (j - l + 1) * b2r (x (sq j)) * b2r (x (sq l))))%R js) /\
      (forall q, In q (flat_map qubits rs) -> In q s) /\ Forall (fun b => gate_block rho b /\ dag_ok rho b) rs.
  Proof.
    intros Hl'. induction js as [|j js IH]; intros H.
    - exists []. repeat split; try reflexivity; [intros q []|constructor].
    - destruct IH as (rs & E & D & Q & G); [intros; apply H; right; assumption|]. destruct (H j (or_introl eq_refl)) as [Hj Hne].
      assert (Ne : sq j <> sq l) by (intros F; apply Hne; apply sq_inj; assumption).
      exists (CPHASE (sq j) (sq l) (qft_angle inverse l j) :: rs). cbn [map]. rewrite (sq_error j Hj), (sq_error l Hl') in *. cbn [osequence]. rewrite E. split; [reflexivity|]. split; [|split].
      + change (seqop (den rho (CPHASE (sq j) (sq l) (qft_angle inverse l j))) (dchain rho rs) = seqop (diag (fun x => (if inverse then -1 else 1) * 2 * PI / 2 ^ (j - l + 1) * b2r (x (sq j)) * b2r (x (sq l))))%R
          (seqs (map (fun j => diag (fun x => (if inverse then -1 else 1) * 2 * PI / 2 ^ (j - l + 1) * b2r (x (sq j)) * b2r (x (sq l))))%R js))).
        rewrite D, cphase_den by exact Ne. reflexivity.
      + intros q Hq. cbn in Hq. assert (In (sq j) s /\ In (sq l) s) as [I1 I2] by (split; apply nth_In; rewrite Hl; assumption). destruct Hq as [<- |[<- |Hq]]; auto.
      + constructor; [|exact G]. cbn. repeat split; intros q [<-|[]] [F|[]]; apply Ne; auto.
  Qed.
  Lemma layer_den rho inverse l : (l < n)%nat -> exists b, qft_layer_digital n s l inverse = Some b /\
    den rho b = (if inverse then seqop (lay (-1) l) (hop l) else seqop (hop l) (lay 1 l)) /\ (forall q, In q (qubits b) -> In q s) /\ gate_block rho b /\ dag_ok rho b.
  Proof.
    intros H. unfold qft_layer_digital, at_. rewrite (sq_error l H). cbn [omap].
    set (range := seq (l + 1) (n - (l + 1))). set (js := if inverse then rev range else range).
    assert (P : Permutation js range) by (unfold js; destruct inverse; [symmetry; apply Permutation_rev|reflexivity]).
    destruct (rots_den rho inverse l js H) as (rs & E & D & Q & G).
    { intros j Hj. apply (Permutation_in _ P) in Hj. apply in_seq in Hj. lia. }
    rewrite (sq_error l H) in E. rewrite E. rewrite diag_seqs in D.
    assert (D' : dchain rho rs = lay (if inverse then -1 else 1)%R l).
    { rewrite D. apply diag_ext. intros x. apply rsum_perm, Permutation_map. exact P. }
    assert (FP : forall l0, Forall (fun b => gate_block rho b /\ dag_ok rho b) l0 -> gate_block rho (BChain l0) /\ dag_ok rho (BChain l0)).
    { intros l0 F. induction F as [|b l0 [F1 F2] F IH]; [split; exact I|]. destruct IH. split; split; assumption. }
    assert (In (sq l) s) by (apply nth_In; rewrite Hl; assumption).
    destruct inverse; (eexists; split; [reflexivity|]; split; [|split]).
    - change (dchain rho (rs ++ [BPrim PH (sq l)]) = seqop (lay (-1) l) (hop l)). rewrite dchain_app, D'. reflexivity.
    - intros q Hq. cbn [qubits] in Hq. rewrite flat_map_app in Hq. apply in_app_iff in Hq. destruct Hq as [Hq|[<-|[]]]; auto.
    - apply FP, Forall_app. split; [exact G|]. repeat constructor.
    - change (seqop (hop l) (dchain rho rs) = seqop (hop l) (lay 1 l)). rewrite D'. reflexivity.
    - intros q [<-|Hq]; auto.
    - apply FP. constructor; [split; exact I|exact G].
  Qed.
  Lemma hop_hop l : seqop (hop l) (hop l) = idop.
  Proof. unfold hop. apply prim_invol. unfold involutive. tauto. Qed.
  Lemma lay_inv l : seqop (lay 1 l) (lay (-1) l) = idop /\ seqop (lay (-1) l) (lay 1 l) = idop.
  Proof.
    unfold lay. split; rewrite diag_seq; apply diag_0; intros x; rewrite <- rsum_plus; apply rsum_zero; intros j _; field; apply pow_nonzero; lra.
  Qed.
  Lemma layer_inv l : seqop (seqop (hop l) (lay 1 l)) (seqop (lay (-1) l) (hop l)) = idop /\ seqop (seqop (lay (-1) l) (hop l)) (seqop (hop l) (lay 1 l)) = idop.
  Proof.
    destruct (lay_inv l) as [A B]. split.
    - rewrite seqop_assoc, <- (seqop_assoc (lay 1 l)), A, seqop_id_l. apply hop_hop.
    - rewrite seqop_assoc, <- (seqop_assoc (hop l)), hop_hop, seqop_id_l. exact B.
  Qed.
  (** The state after l layers applied to the basis state c. *)
  Variable c : list bool.
  Hypothesis Hc : length c = n.
  Definition cb (j : nat) : R := b2r (nth j c false).
  Definition th (k : nat) : R := rsum (map (fun j => cb j / 2 ^ (j - k + 1))%R (seq k (n - k))).
  Definition Ang (l : nat) (x : asg) : R := rsum (map (fun k => b2r (x (sq k)) * th k)%R (seq 0 l)).
  Definition tl (l : nat) (x : asg) : bool := forallb (fun j => Bool.eqb (x (sq j)) (nth j c false)) (seq l (n - l)).
  Definition stt (l : nat) : St := fun x => cpow (/ RtoC (sqrt 2)) l * cis (2 * PI * Ang l x) * (if tl l x then RtoC 1 else RtoC 0).
  Lemma Ang_upd l x b : (l < n)%nat -> Ang l (upd x (sq l) b) = Ang l x.
  Proof.
    intros H. unfold Ang. apply rsum_ext. intros k Hk. apply in_seq in Hk. rewrite upd_other; [reflexivity|]. intros E. apply sq_inj in E; lia.
  Qed.
  Lemma tl_split l x : (l < n)%nat -> tl l x = (Bool.eqb (x (sq l)) (nth l c false) && tl (S l) x)%bool.
  Proof. intros H. unfold tl. replace (n - l)%nat with (S (n - S l)) by lia. reflexivity. Qed.
  Lemma tl_upd l x b : (l < n)%nat -> tl (S l) (upd x (sq l) b) = tl (S l) x.
  Proof.
    intros H. unfold tl. apply (forallb_upd (fun x j => Bool.eqb (x (sq j)) (nth j c false))). intros j Hj. apply in_seq in Hj. rewrite upd_other; [reflexivity|]. intros E. apply sq_inj in E; lia.
  Qed.
  Lemma th_split l : (l < n)%nat -> th l = (cb l / 2 + rsum (map (fun j => cb j / 2 ^ (j - l + 1)) (seq (l + 1) (n - (l + 1)))))%R.
  Proof.
    intros H. unfold th. replace (n - l)%nat with (S (n - (l + 1))) by lia. cbn [seq map rsum]. rewrite Nat.sub_diag. replace (l + 1)%nat with (S l) by lia. simpl pow. f_equal. f_equal. ring.
  Qed.
  Lemma step l : (l < n)%nat -> seqop (hop l) (lay 1 l) (stt l) = stt (S l).
  Proof.
    intros H. extensionality x. unfold seqop, lay, diag, hop. rewrite gate1_eq. unfold stt. rewrite !Ang_upd, !(tl_split l), !upd_same, !tl_upd by exact H.
    destruct (tl (S l) x) eqn:T.
    - assert (E : prim_mat PH (x (sq l)) false * (cpow (/ RtoC (sqrt 2)) l * cis (2 * PI * Ang l x) * (if (Bool.eqb false (nth l c false) && true)%bool then RtoC 1 else RtoC 0)) +
        prim_mat PH (x (sq l)) true * (cpow (/ RtoC (sqrt 2)) l * cis (2 * PI * Ang l x) * (if (Bool.eqb true (nth l c false) && true)%bool then RtoC 1 else RtoC 0)) =
        prim_mat PH (x (sq l)) (nth l c false) * (cpow (/ RtoC (sqrt 2)) l * cis (2 * PI * Ang l x))).
      { destruct (nth l c false); simpl andb; cbn iota; ring. }
      rewrite E, H_entry. cbn [cpow].
      assert (A : (rsum (map (fun j => 1 * 2 * PI / 2 ^ (j - l + 1) * b2r (x (sq j)) * b2r (x (sq l))) (seq (l + 1) (n - (l + 1)))))%R =
        (2 * PI * (b2r (x (sq l)) * rsum (map (fun j => cb j / 2 ^ (j - l + 1)) (seq (l + 1) (n - (l + 1))))))%R).
      { rewrite <- Rmult_assoc, <- rsum_scal. apply rsum_ext. intros j Hj. apply in_seq in Hj. unfold tl in T. rewrite forallb_forall in T.
        assert (X : x (sq j) = nth j c false) by (apply Bool.eqb_prop, T, in_seq; lia). rewrite X. unfold cb. field. apply pow_nonzero. lra. }
      rewrite A. unfold Ang. rewrite seq_S, map_app. cbn [map]. rewrite rsum_app. cbn [rsum]. fold (Ang l x). simpl Nat.add. rewrite (th_split l H).
      transitivity (/ RtoC (sqrt 2) * cpow (/ RtoC (sqrt 2)) l * (cis (2 * PI * Ang l x) * cis (2 * PI * (b2r (x (sq l)) * (cb l / 2))) *
         cis (2 * PI * (b2r (x (sq l)) * rsum (map (fun j => (cb j / 2 ^ (j - l + 1))%R) (seq (l + 1) (n - (l + 1)))))))); [unfold cb; ring|].
      rewrite !cis_add. rewrite Cmult_1_r. f_equal. f_equal. ring.
    - rewrite !andb_false_r. ring.
  Qed.
  Lemma stt_run l : (l <= n)%nat -> seqs (map (fun k => seqop (hop k) (lay 1 k)) (seq 0 l)) (stt 0) = stt l.
  Proof.
    induction l as [|l IH]; intros H; [reflexivity|]. rewrite seq_S, map_app, seqs_app. cbn [map seqs]. rewrite seqop_id_r.
    change (seqop (hop l) (lay 1 l) (seqs (map (fun k => seqop (hop k) (lay 1 k)) (seq 0 l)) (stt 0)) = stt (S l)). rewrite IH by lia. apply step. lia.
  Qed.
  Lemma stt_0 : stt 0 = ket s c.
  Proof.
    extensionality x. unfold stt, ket, Ang. cbn [seq map rsum cpow]. rewrite Rmult_0_r, cis_0, !Cmult_1_l.
    assert (E : tl 0 x = eqbits (map x s) c); [|rewrite E; reflexivity].
    unfold tl. rewrite Nat.sub_0_r. destruct (eqbits (map x s) c) eqn:F.
    - apply eqbits_true in F. apply forallb_forall. intros j Hj. apply in_seq in Hj. rewrite <- F. unfold sq. rewrite (nth_indep (map x s) false (x 0%nat)) by (rewrite map_length; lia). rewrite map_nth. apply Bool.eqb_reflx.
    - apply not_true_iff_false. intros T. apply eqbits_false in F. apply F. rewrite forallb_forall in T. apply (nth_ext _ _ (x 0%nat) false); [rewrite map_length; lia|].
      intros j Hj. rewrite map_length in Hj. rewrite map_nth. apply Bool.eqb_prop, T, in_seq. lia.
  Qed.
End Support.
(** ** Reading the phases as r c / 2^n *)
Lemma b2n_b2r b : INR (b2n b) = b2r b.
Proof. destruct b; reflexivity. Qed.
Lemma val_sum c : INR (bits_to_nat c) = rsum (map (fun j => (b2r (nth j c false) * 2 ^ (length c - 1 - j))%R) (seq 0 (length c))).
Proof.
  induction c as [|b c IH]; [reflexivity|]. cbn [bits_to_nat length]. rewrite plus_INR, mult_INR, pow_INR, b2n_b2r, IH. cbn [seq map rsum]. rewrite <- seq_shift, map_map. f_equal.
  - simpl INR. replace (S (length c) - 1 - 0)%nat with (length c) by lia. cbn [nth]. replace (1 + 1)%R with 2%R by ring. reflexivity.
  - f_equal. apply map_ext_in. intros j Hj. apply in_seq in Hj. cbn [nth]. replace (S (length c) - 1 - S j)%nat with (length c - 1 - j)%nat by lia. reflexivity.
Qed.
Lemma val_rev r : INR (bits_to_nat (rev r)) = rsum (map (fun k => (b2r (nth k r false) * 2 ^ k)%R) (seq 0 (length r))).
Proof.
  induction r as [|b r IH]; [reflexivity|]. cbn [rev length]. rewrite bits_to_nat_app. cbn [bits_to_nat length]. rewrite !plus_INR, !mult_INR, pow_INR, b2n_b2r, IH. cbn [seq map rsum]. rewrite <- seq_shift, map_map. cbn [nth].
  assert (E : rsum (map (fun x => (b2r (nth x r false) * 2 ^ S x)%R) (seq 0 (length r))) = (2 * rsum (map (fun k => b2r (nth k r false) * 2 ^ k) (seq 0 (length r))))%R).
  { rewrite <- rsum_scal. apply rsum_ext. intros k _. simpl. ring. }
  rewrite E. simpl. ring.
Qed.
Lemma natsum {A} (f : A -> R) l : (forall a, In a l -> exists m : nat, f a = INR m) -> exists m : nat, rsum (map f l) = INR m.
Proof.
  induction l as [|a l IH]; intros H; [exists 0%nat; reflexivity|]. destruct (H a (or_introl eq_refl)) as [m Em]. destruct IH as [k Ek]; [intros; apply H; right; assumption|].
  exists (m + k)%nat. cbn [map rsum]. rewrite Em, Ek, plus_INR. reflexivity.
Qed.
Lemma phase_split n r c : length r = n -> length c = n ->
  exists m : nat, (INR (bits_to_nat (rev r)) * INR (bits_to_nat c) / 2 ^ n)%R = (rsum (map (fun k => b2r (nth k r false) * th n c k) (seq 0 n)) + INR m)%R.
Proof.
  intros Hr Hc.
  assert (N0 : forall k, (2 ^ k)%R <> 0%R) by (intros; apply pow_nonzero; lra).
  destruct (natsum (fun k => b2r (nth k r false) * rsum (map (fun j => b2r (nth j c false) * 2 ^ (k - 1 - j)) (seq 0 k)))%R (seq 0 n)) as [m Em].
  { intros k _. destruct (natsum (fun j => b2r (nth j c false) * 2 ^ (k - 1 - j))%R (seq 0 k)) as [m Em].
    - intros j _. exists (b2n (nth j c false) * 2 ^ (k - 1 - j))%nat. rewrite mult_INR, pow_INR, b2n_b2r. reflexivity.
    - exists (b2n (nth k r false) * m)%nat. rewrite Em, mult_INR, b2n_b2r. reflexivity. }
  exists m. rewrite <- Em, <- rsum_plus, val_rev, val_sum, Hr, Hc.
  set (V := rsum (map (fun j => (b2r (nth j c false) * 2 ^ (n - 1 - j))%R) (seq 0 n))).
  replace (rsum (map (fun k => b2r (nth k r false) * 2 ^ k)%R (seq 0 n)) * V / 2 ^ n)%R with (V / 2 ^ n * rsum (map (fun k => b2r (nth k r false) * 2 ^ k) (seq 0 n)))%R by (field; apply N0).
  rewrite <- rsum_scal. apply rsum_ext. intros k Hk. apply in_seq in Hk.
  rewrite <- Rmult_plus_distr_l.
  transitivity (b2r (nth k r false) * (2 ^ k / 2 ^ n * V))%R; [field; apply N0|]. f_equal. unfold V. rewrite <- rsum_scal.
  assert (SE : seq 0 n = seq 0 k ++ seq k (n - k)) by (etransitivity; [|exact (seq_app k (n - k) 0)]; f_equal; lia). rewrite SE, map_app, rsum_app. rewrite Rplus_comm. f_equal.
  - unfold th. apply rsum_ext. intros j Hj. apply in_seq in Hj. unfold cb.
    assert (E : (2 ^ n = 2 ^ k * (2 ^ (j - k + 1) * 2 ^ (n - 1 - j)))%R) by (rewrite <- !pow_add; f_equal; lia). rewrite E. field. repeat split; apply N0.
  - apply rsum_ext. intros j Hj. apply in_seq in Hj.
    assert (E : (2 ^ k * 2 ^ (n - 1 - j) = 2 ^ n * 2 ^ (k - 1 - j))%R) by (rewrite <- !pow_add; f_equal; lia).
    transitivity (b2r (nth j c false) * (2 ^ k * 2 ^ (n - 1 - j)) / 2 ^ n)%R; [field; apply N0|]. rewrite E. field. apply N0.
Qed.
Lemma cpow_h n : cpow (/ RtoC (sqrt 2)) n = RtoC (1 / sqrt (2 ^ n)).
Proof.
  assert (P : (0 < sqrt 2)%R) by (apply sqrt_lt_R0; lra). induction n as [|n IH]; cbn [cpow].
  - simpl pow. rewrite sqrt_1. f_equal. field.
  - rewrite IH, <- RtoC_inv, <- RtoC_mult by lra. f_equal. cbn [pow]. assert (Q : (0 < sqrt (2 ^ n))%R) by (apply sqrt_lt_R0, pow_lt; lra). rewrite sqrt_mult by (try apply pow_le; lra). field. lra.
Qed.
(** ** The swaps *)
Definition pk (n k i : nat) : nat := if Nat.ltb i k || Nat.leb (n - k) i then (n - 1 - i)%nat else i.
Definition revop (s : list nat) : Op := fun psi x => psi (upds x s (rev (map x s))).
Lemma revop_invol s : NoDup s -> seqop (revop s) (revop s) = idop.
Proof.
  intros H. extensionality psi. extensionality x. unfold seqop, revop, idop. rewrite upds_map by (try rewrite rev_length, map_length; auto). rewrite rev_involutive, upds_upds by (rewrite ?rev_length, map_length; reflexivity). rewrite upds_id. reflexivity.
Qed.
Lemma swaps_run n s k : NoDup s -> length s = n -> (k <= n / 2)%nat ->
  seqs (map (fun i => swapop (sq s i) (sq s (n - i - 1))) (seq 0 k)) = fun psi x => psi (upds x s (map (fun i => x (sq s (pk n k i))) (seq 0 n))).
Proof.
  intros Hn Hl. induction k as [|k IH]; intros Hk.
  - extensionality psi. extensionality x. cbn [seq map seqs]. unfold idop. f_equal.
    assert (E : map (fun i => x (sq s (pk n 0 i))) (seq 0 n) = map x s); [|rewrite E; symmetry; apply upds_id].
    transitivity (map x (map (sq s) (seq 0 n))); [|rewrite (map_sq n s Hl); reflexivity]. rewrite map_map. apply map_ext_in. intros i Hi. apply in_seq in Hi. unfold pk. simpl.
    destruct (Nat.leb_spec (n - 0) i); [lia|reflexivity].
  - pose proof (Nat.div_mod n 2 ltac:(lia)) as D. pose proof (Nat.mod_upper_bound n 2 ltac:(lia)) as D'.
    rewrite seq_S, map_app, seqs_app. cbn [map seqs]. rewrite seqop_id_r, IH by lia. extensionality psi. extensionality x. unfold seqop, swapop. cbn [Nat.add].
    set (a := sq s k). set (b := sq s (n - k - 1)).
    assert (Ia : In a s) by (apply nth_In; lia). assert (Ib : In b s) by (apply nth_In; lia).
    rewrite !upds_upd_in by (try assumption; rewrite map_length, seq_length; auto). f_equal. f_equal. apply map_ext_in. intros i Hi. apply in_seq in Hi.
    assert (Ne : a <> b) by (intros F; apply (sq_inj n s Hn Hl) in F; lia).
    assert (X : forall j, (j < n)%nat -> upd (upd x a (x b)) b (x a) (sq s j) = x (sq s (if Nat.eqb j k then (n - k - 1) else if Nat.eqb j (n - k - 1) then k else j)%nat)).
    { intros j Hj. destruct (Nat.eqb_spec j k) as [->|N1].
      - rewrite upd_other by exact Ne. apply upd_same.
      - destruct (Nat.eqb_spec j (n - k - 1)) as [->|N2]; [apply upd_same|]. rewrite !upd_other; [reflexivity| |]; intros F; apply (sq_inj n s Hn Hl) in F; lia. }
    assert (Pl : (pk n k i < n)%nat) by (unfold pk; destruct (_ || _)%bool; lia). rewrite (X _ Pl). f_equal. f_equal. unfold pk.
    destruct (Nat.ltb_spec i k), (Nat.ltb_spec i (S k)), (Nat.leb_spec (n - k) i), (Nat.leb_spec (n - S k) i); try lia; simpl orb; cbn iota;
      repeat match goal with |- context[Nat.eqb ?u ?v] => destruct (Nat.eqb_spec u v) end; lia.
Qed.
Lemma swaps_revop n s : NoDup s -> length s = n -> seqs (map (fun i => swapop (sq s i) (sq s (n - i - 1))) (seq 0 (n / 2))) = revop s.
Proof.
  intros Hn Hl. rewrite (swaps_run n s _ Hn Hl (le_n _)). extensionality psi. extensionality x. unfold revop. f_equal. f_equal.
  pose proof (Nat.div_mod n 2 ltac:(lia)) as D. pose proof (Nat.mod_upper_bound n 2 ltac:(lia)) as D'.
  apply (nth_ext _ _ false false); [rewrite map_length, seq_length, rev_length, map_length; auto|]. intros i Hi. rewrite map_length, seq_length in Hi.
  rewrite rev_nth by (rewrite map_length, Hl; exact Hi). rewrite map_length, Hl.
  rewrite (nth_indep _ _ (x (sq s (pk n (n / 2) 0)))) by (rewrite map_length, seq_length; exact Hi). rewrite (map_nth (fun i => x (sq s (pk n (n / 2) i)))), seq_nth by exact Hi.
  rewrite (nth_indep _ _ (x 0%nat)) by (rewrite map_length; lia). rewrite map_nth. unfold sq. f_equal. f_equal. unfold pk. cbn [Nat.add].
  destruct (Nat.ltb_spec i (n / 2)), (Nat.leb_spec (n - n / 2) i); simpl; lia.
Qed.
Lemma swaps_den rho n s : NoDup s -> length s = n -> exists sw, qft_swaps n s = Some sw /\ dchain rho sw = revop s /\ (forall q, In q (flat_map qubits sw) -> In q s) /\
  Forall (fun b => gate_block rho b /\ dag_ok rho b) sw.
Proof.
  intros Hn Hl. rewrite <- (swaps_revop n s Hn Hl). unfold qft_swaps.
  pose proof (Nat.div_mod n 2 ltac:(lia)) as D. pose proof (Nat.mod_upper_bound n 2 ltac:(lia)) as D'.
  assert (H : forall i, In i (seq 0 (n / 2)) -> (i < n)%nat) by (intros i Hi; apply in_seq in Hi; lia).
  induction (seq 0 (n / 2)) as [|i is IH].
  - exists []. repeat split; try reflexivity; [intros q []|constructor].
  - destruct IH as (sw & E & Dn & Q & G); [intros; apply H; right; assumption|]. pose proof (H i (or_introl eq_refl)) as Hi.
    cbn [map]. rewrite (sq_error n s Hl i), (sq_error n s Hl (n - i - 1)) by lia. exists (BSwap (sq s i) (sq s (n - i - 1)) :: sw). cbn [osequence]. rewrite E. split; [reflexivity|]. split; [|split].
    + change (seqop (swapop (sq s i) (sq s (n - i - 1))) (dchain rho sw) = seqop (swapop (sq s i) (sq s (n - i - 1))) (seqs (map (fun i => swapop (sq s i) (sq s (n - i - 1))) is))). rewrite Dn. reflexivity.
    + assert (In (sq s i) s /\ In (sq s (n - i - 1)) s) as [I1 I2] by (split; apply nth_In; lia). intros q [<-|[<-|Hq]]; auto.
    + constructor; [split; exact I|exact G].
Qed.
Definition layop n s (inverse : bool) (l : nat) : Op := if inverse then seqop (lay n s (-1) l) (hop s l) else seqop (hop s l) (lay n s 1 l).
Lemma layers_den rho n s inverse js : NoDup s -> length s = n -> (forall l, In l js -> (l < n)%nat) ->
  exists ls, osequence (map (fun layer => qft_layer_digital n s layer inverse) js) = Some ls /\ dchain rho ls = seqs (map (layop n s inverse) js) /\
  (forall q, In q (flat_map qubits ls) -> In q s) /\ Forall (fun b => gate_block rho b /\ dag_ok rho b) ls.
Proof.
  intros Hn Hl. induction js as [|l js IH]; intros H.
  - exists []. repeat split; try reflexivity; [intros q []|constructor].
  - destruct IH as (ls & E & D & Q & G); [intros; apply H; right; assumption|]. destruct (layer_den n s Hn Hl rho inverse l (H l (or_introl eq_refl))) as (b & Eb & Db & Qb & Gb).
    exists (b :: ls). cbn [map]. rewrite Eb. cbn [osequence]. rewrite E. split; [reflexivity|]. split; [|split].
    + change (seqop (den rho b) (dchain rho ls) = seqop (layop n s inverse l) (seqs (map (layop n s inverse) js))). rewrite D, Db. reflexivity.
    + intros q Hq. cbn [flat_map] in Hq. apply in_app_iff in Hq. destruct Hq; auto.
    + constructor; assumption.
Qed.
Lemma chain_ok rho l0 : Forall (fun b => gate_block rho b /\ dag_ok rho b) l0 -> gate_block rho (BChain l0) /\ dag_ok rho (BChain l0).
Proof. intros F. induction F as [|b l0 [F1 F2] F IH]; [split; exact I|]. destruct IH. split; split; assumption. Qed.
(** The operator of the whole circuit. *)
Definition qop n s (inverse swaps : bool) : Op :=
  let sw := if swaps then revop s else idop in
  if inverse then seqop sw (seqs (map (layop n s true) (rev (seq 0 n)))) else seqop (seqs (map (layop n s false) (seq 0 n))) sw.
Lemma qft_den rho n s0 inverse rin sw : NoDup s0 -> length s0 = n -> exists b, qft n (Some s0) inverse rin sw DIGITAL = Some b /\
  den rho b = qop n (if rin then rev s0 else s0) inverse sw /\ (forall q, In q (qubits b) -> In q s0) /\ gate_block rho b /\ dag_ok rho b.
Proof.
  intros Hn0 Hl0. unfold qft, qft_of. rewrite Hl0, Nat.ltb_irrefl.
  set (s := if rin then rev s0 else s0). assert (Hn : NoDup s) by (unfold s; destruct rin; [apply NoDup_rev|]; assumption).
  assert (Hl : length s = n) by (unfold s; destruct rin; [rewrite rev_length|]; assumption).
  assert (Hi : forall q, In q s -> In q s0) by (unfold s; destruct rin; intros q; [rewrite <- in_rev|]; auto). clearbody s.
  destruct (layers_den rho n s inverse (if inverse then rev (seq 0 n) else seq 0 n) Hn Hl) as (ls & E & D & Q & G).
  { intros l H. destruct inverse; [apply in_rev in H|]; apply in_seq in H; lia. }
  rewrite E. destruct sw.
  - destruct (swaps_den rho n s Hn Hl) as (ws & Ew & Dw & Qw & Gw). rewrite Ew. eexists. split; [reflexivity|]. destruct inverse; (split; [|split]).
    + change (dchain rho (ws ++ [BChain ls]) = qop n s true true). rewrite dchain_app, Dw. change (dchain rho [BChain ls]) with (seqop (dchain rho ls) idop). rewrite D, seqop_id_r. reflexivity.
    + intros q Hq. cbn [qubits] in Hq. rewrite flat_map_app in Hq. apply in_app_iff in Hq. destruct Hq as [Hq|Hq]; [auto|]. cbn [flat_map qubits] in Hq. rewrite app_nil_r in Hq. auto.
    + apply chain_ok, Forall_app. split; [exact Gw|]. constructor; [apply chain_ok; exact G|constructor].
    + change (seqop (dchain rho ls) (dchain rho ws) = qop n s false true). rewrite D, Dw. reflexivity.
    + intros q Hq. cbn [qubits flat_map] in Hq. apply in_app_iff in Hq. destruct Hq; auto.
    + apply chain_ok. constructor; [apply chain_ok; exact G|exact Gw].
  - eexists. split; [reflexivity|]. split; [|split].
    + change (dchain rho ls = qop n s inverse false). rewrite D. unfold qop. destruct inverse; [rewrite seqop_id_l|rewrite seqop_id_r]; reflexivity.
    + intros q Hq. apply Hi, Q. exact Hq.
    + apply chain_ok. exact G.
Qed.
Lemma qop_inverse n s sw : NoDup s -> seqop (qop n s false sw) (qop n s true sw) = idop /\ seqop (qop n s true sw) (qop n s false sw) = idop.
Proof.
  intros Hn. assert (S2 : seqop (if sw then revop s else idop) (if sw then revop s else idop) = idop) by (destruct sw; [apply revop_invol; exact Hn|apply seqop_id_l]).
  unfold qop. split.
  - rewrite seqop_assoc, <- (seqop_assoc (if sw then revop s else idop)), S2. rewrite map_rev. apply seqs_palindrome; [reflexivity|].
    induction (seq 0 n) as [|l ls IH]; constructor; [apply layer_inv|exact IH].
  - rewrite seqop_assoc, <- (seqop_assoc (seqs _) (seqs _)).
    assert (M : seqop (seqs (map (layop n s true) (rev (seq 0 n)))) (seqs (map (layop n s false) (seq 0 n))) = idop).
    { rewrite <- (rev_involutive (seq 0 n)) at 2. rewrite (map_rev (layop n s false)). rewrite <- (seqop_id_l (seqs (rev _))). apply seqs_palindrome; [reflexivity|].
      induction (rev (seq 0 n)) as [|l ls IH]; constructor; [apply layer_inv|exact IH]. }
    rewrite M, seqop_id_l. exact S2.
Qed.
Lemma qop_matrix n s sw r c : NoDup s -> length s = n -> length r = n -> length c = n ->
  matof s (qop n s false sw) r c = dft n (bits_to_nat (if sw then r else rev r)) (bits_to_nat c).
Proof.
  intros Hn Hl Hr Hc.
  assert (M : forall r, length r = n -> matof s (seqs (map (layop n s false) (seq 0 n))) r c = dft n (bits_to_nat (rev r)) (bits_to_nat c)).
  { clear r Hr. intros r Hr. unfold matof. rewrite <- (stt_0 n s Hl c Hc). unfold layop. rewrite (stt_run n s Hn Hl c Hc n (le_n _)). unfold stt, dft.
    unfold tl. rewrite Nat.sub_diag. cbn [seq forallb]. rewrite cpow_h, Cmult_1_r. f_equal.
    destruct (phase_split n r c Hr Hc) as [m Em].
    replace (2 * PI * (INR (bits_to_nat (rev r)) * INR (bits_to_nat c)) / 2 ^ n)%R with (2 * PI * (INR (bits_to_nat (rev r)) * INR (bits_to_nat c) / 2 ^ n))%R by (field; apply pow_nonzero; lra).
    rewrite Em, cis_period. f_equal. f_equal. unfold Ang. apply rsum_ext. intros k Hk. apply in_seq in Hk. f_equal. f_equal.
    rewrite <- (upds_map zeros s r Hn) at 2 by lia. unfold sq. rewrite (nth_indep _ false (upds zeros s r 0%nat)) by (rewrite map_length; lia). rewrite map_nth. reflexivity. }
  unfold qop. destruct sw.
  - rewrite <- (rev_involutive r) at 2. rewrite <- M by (rewrite rev_length; exact Hr). unfold matof, seqop, revop. rewrite upds_map by (try lia; exact Hn). rewrite upds_upds by (rewrite ?rev_length; lia). reflexivity.
  - rewrite seqop_id_r. apply M. exact Hr.
Qed.

(** C23.  For every n, every list of n distinct qubits and every setting of the flags the circuit is built, touches only those qubits, and its matrix
    on them (first qubit most significant; the reversed order when [reverse_in]) is the Fourier matrix, with the output bits reversed when the final swaps are left out. *)
Theorem C23_matrix : forall n support rin swaps, NoDup support -> length support = n ->
  exists b, qft n (Some support) false rin swaps DIGITAL = Some b /\ (forall q, In q (qubits b) -> In q support) /\
    forall rho r c, length r = n -> length c = n ->
      matof (if rin then rev support else support) (den rho b) r c = dft n (bits_to_nat (if swaps then r else rev r)) (bits_to_nat c).
Proof.
  intros n s rin sw Hn Hl. destruct (qft_den (fun _ => 0%R) n s false rin sw Hn Hl) as (b & E & _ & Q & _). exists b. split; [exact E|]. split; [exact Q|].
  intros rho r c Hr Hc. destruct (qft_den rho n s false rin sw Hn Hl) as (b' & E' & D & _). rewrite E in E'. injection E' as <-. rewrite D.
  apply qop_matrix; try assumption; destruct rin; rewrite ?rev_length; try assumption. apply NoDup_rev. exact Hn.
Qed.
(** The inverse circuit undoes it, in both orders, whatever the flags, and its matrix is the conjugate transpose. *)
Theorem C23_inverse : forall n support rin swaps, NoDup support -> length support = n ->
  exists f i, qft n (Some support) false rin swaps DIGITAL = Some f /\ qft n (Some support) true rin swaps DIGITAL = Some i /\
    forall rho, seqop (den rho f) (den rho i) = idop /\ seqop (den rho i) (den rho f) = idop /\
      forall r c, length r = n -> length c = n ->
        matof (if rin then rev support else support) (den rho i) r c = Cconj (dft n (bits_to_nat (if swaps then c else rev c)) (bits_to_nat r)).
Proof.
  intros n s rin sw Hn Hl. destruct (qft_den (fun _ => 0%R) n s false rin sw Hn Hl) as (b & E & _). destruct (qft_den (fun _ => 0%R) n s true rin sw Hn Hl) as (b' & E' & _).
  exists b, b'. split; [exact E|]. split; [exact E'|]. intros rho.
  destruct (qft_den rho n s false rin sw Hn Hl) as (b1 & E1 & D1 & Q1 & G1 & O1). rewrite E in E1. injection E1 as <-.
  destruct (qft_den rho n s true rin sw Hn Hl) as (b2 & E2 & D2 & _). rewrite E' in E2. injection E2 as <-.
  set (t := if rin then rev s else s) in *. assert (Ht : NoDup t) by (unfold t; destruct rin; [apply NoDup_rev|]; exact Hn).
  assert (Hl' : length t = n) by (unfold t; destruct rin; rewrite ?rev_length; exact Hl).
  destruct (qop_inverse n t sw Ht) as [I1 I2]. rewrite <- D1, <- D2 in I1, I2. split; [exact I1|]. split; [exact I2|]. intros r c Hr Hc.
  destruct (C49_dagger_inverse rho b G1 O1) as [A B].
  assert (U : den rho b' = den rho (dagger b)) by (rewrite <- (seqop_id_l (den rho b')), <- B, seqop_assoc, I1, seqop_id_r; reflexivity).
  rewrite U, (C04_dagger_is_adjoint rho b t Ht); try (rewrite Hl'); auto.
  - rewrite D1, qop_matrix by assumption. reflexivity.
  - intros q Hq. apply Q1 in Hq. unfold t. destruct rin; [apply -> in_rev|]; exact Hq.
Qed.
(** Leaving the support out means qubits 0 .. n-1. *)
Theorem C23_default : forall n inverse rin swaps s, qft n None inverse rin swaps s = qft n (Some (seq 0 n)) inverse rin swaps s.
Proof. reflexivity. Qed.
Lemma osequence_none {A} (l : list (option A)) : In None l -> osequence l = None.
Proof. induction l as [|[a|] l IH]; cbn; intros H; [contradiction| |reflexivity]. destruct H as [H|H]; [discriminate|]. rewrite (IH H). reflexivity. Qed.
(** A support of any other size is refused: a longer one by the assertion; a shorter one passes the assertion and ends in an IndexError. *)
Theorem C23_size : forall n support inverse rin swaps, length support <> n -> qft n (Some support) inverse rin swaps DIGITAL = None.
Proof.
  intros n s inverse rin sw H. unfold qft, qft_of. destruct (Nat.ltb_spec n (length s)) as [L|L]; [reflexivity|].
  set (t := if rin then rev s else s). assert (Ht : length t = length s) by (unfold t; destruct rin; rewrite ?rev_length; reflexivity).
  rewrite osequence_none; [reflexivity|]. apply in_map_iff. exists (length s). split.
  - unfold qft_layer_digital, at_. replace (nth_error t (length s)) with (@None nat) by (symmetry; apply nth_error_None; lia). simpl. destruct (osequence _); reflexivity.
  - destruct inverse; [apply -> in_rev|]; apply in_seq; lia.
Qed.
(** Three qubits in an unusual order: entry (3, 5) of the matrix is 8^(-1/2) exp(2 pi i 15/8). *)
Example C23_case : exists b, qft 3 (Some [4; 0; 2]%nat) false true true DIGITAL = Some b /\ forall rho,
  matof [2; 0; 4]%nat (den rho b) [false; true; true] [true; false; true] = RtoC (1 / sqrt (2 ^ 3)) * cis (2 * PI * (INR 3 * INR 5) / 2 ^ 3).
Proof.
  destruct (C23_matrix 3 [4; 0; 2]%nat true true) as (b & E & _ & M); [repeat constructor; simpl; intuition discriminate|reflexivity|]. exists b. split; [exact E|]. intros rho.
  exact (M rho [false; true; true] [true; false; true] eq_refl eq_refl).
Qed.
Print Assumptions C23_matrix.
Print Assumptions C23_inverse.
Print Assumptions C23_default.
Print Assumptions C23_size.
