(** Exponentials of Pauli strings: the CNOT ladder and the basis changes. *)
From Coq Require Import String Reals List Arith Bool Lia Lra FunctionalExtensionality Permutation.
From Coquelicot Require Import Coquelicot.
From Coq Require Import List.
From Verif Require Import S_Ops L_Ops M_Block S_Den L_Den L_Loc L_Adj L_Gates L_Exp L_Tensor L_ExpMul L_ExpOp S_State L_Inner P_States.
Import ListNotations.
Open Scope R_scope.
Open Scope C_scope.

(** cos(t) - i sin(t) Q *)
Definition rotop (t : R) (Q : Op) : Op := addop (scaleop (RtoC (cos t)) idop) (scaleop (- Ci * RtoC (sin t)) Q).
Lemma loc_rotop T t Q : loc T Q -> loc T (rotop t Q).
Proof. intros H. apply loc_add; apply loc_scale; [apply loc_id|exact H]. Qed.
Lemma eop_invol fs Q (t : R) : NoDup fs -> loc (inl fs) Q -> seqop Q Q = idop -> eop fs (scaleop (- Ci * RtoC t) Q) = rotop t Q.
Proof.
  intros N H E. apply (loc_op_eq fs); [exact N|apply loc_eop|apply loc_rotop; exact H|]. intros r c Hr Hc.
  unfold eop. rewrite matof_gate by assumption.
  transitivity (bexp (length fs) (fun r c => RtoC (- t) * Ci * matof fs Q r c) r c).
  { apply bexp_ext; [|exact Hr|exact Hc]. intros r' c' _ _. rewrite matof_scale, RtoC_opp. ring. }
  rewrite bexp_inv; [|intros r' c' Hr' Hc'|exact Hr|exact Hc].
  - unfold rotop. rewrite matof_add, !matof_scale, matof_id by assumption. rewrite cos_neg, sin_neg, RtoC_opp. ring.
  - rewrite <- (matof_id fs) by assumption. rewrite <- E. symmetry. apply (matof_seq (inl fs)); auto.
Qed.
Lemma rotop_conj t U A V : linear V -> seqop U V = idop -> seqop U (seqop (rotop t A) V) = rotop t (seqop U (seqop A V)).
Proof.
  intros [L1 L2] E. extensionality psi. extensionality x. unfold rotop, seqop, addop, scaleop, idop. rewrite L1, !L2.
  change (V (U psi)) with (seqop U V psi). rewrite E. reflexivity.
Qed.
Lemma rz_rotop q t : gate1 q (rot_mat RZ_ t) = rotop (t / 2) (gate1 q (prim_mat PZ)).
Proof.
  extensionality psi. extensionality x. unfold rotop, addop, scaleop, idop. rewrite !gate1_diag by reflexivity.
  destruct (x q); cbn [rot_mat prim_mat mat2]; unfold cis; rewrite ?cos_neg, ?sin_neg; unfold Ci; generalize (psi x); intros [a b]; apply Ceq; simpl; ring.
Qed.
(** ** Products of one-qubit gates *)
Definition pprod (w : nat -> prim) (l : list nat) : Op := seqs (map (fun i => gate1 i (prim_mat (w i))) l).
Lemma loc_gate1 q m : loc (eq q) (gate1 q m).
Proof. constructor. intros k [->|[]]. reflexivity. Qed.
Lemma loc_pprod w l : loc (inl l) (pprod w l).
Proof.
  unfold pprod. assert (H : forall k, In k l -> inl l k) by auto. revert H. generalize (inl l) as T. induction l as [|q l IH]; intros T H; cbn [map seqs]; [constructor|]. apply loc_seq.
  - eapply loc_mono; [|apply loc_gate1]. intros k <-. apply H. left. reflexivity.
  - apply IH. intros k Hk. apply H. right. exact Hk.
Qed.
Lemma pprod_ext w w' l : (forall i, In i l -> w i = w' i) -> pprod w l = pprod w' l.
Proof. intros H. unfold pprod. f_equal. apply map_ext_in. intros i Hi. rewrite (H i Hi). reflexivity. Qed.
Lemma pprod_app w a b : pprod w (a ++ b) = seqop (pprod w a) (pprod w b).
Proof. unfold pprod. rewrite map_app. apply seqs_app. Qed.
Lemma seqs_perm (l l' : list Op) : Permutation l l' -> (forall A B, In A l -> In B l -> seqop A B = seqop B A) -> seqs l = seqs l'.
Proof.
  induction 1 as [|A l l' P IH|A B l|l l' l'' P1 IH1 P2 IH2]; intros H; cbn [seqs].
  - reflexivity.
  - rewrite IH; [reflexivity|]. intros; apply H; right; assumption.
  - rewrite <- !seqop_assoc. f_equal. apply H; [left|right; left]; reflexivity.
  - rewrite IH1 by exact H. apply IH2. intros A B IA IB. apply H; eapply Permutation_in; try (symmetry; eassumption); assumption.
Qed.
Lemma gate1_comm a b m m' : a <> b -> seqop (gate1 a m) (gate1 b m') = seqop (gate1 b m') (gate1 a m).
Proof. intros H. eapply loc_comm; [apply loc_gate1|apply loc_gate1|]. intros k <- E. apply H. symmetry. exact E. Qed.
Lemma pprod_perm w l l' : Permutation l l' -> pprod w l = pprod w l'.
Proof.
  intros P. unfold pprod. apply seqs_perm; [apply Permutation_map; exact P|]. intros A B IA IB. apply in_map_iff in IA as (a & <- & _). apply in_map_iff in IB as (b & <- & _).
  destruct (Nat.eq_dec a b) as [->|N]; [reflexivity|apply gate1_comm; exact N].
Qed.
Lemma pprod_invol w l : NoDup l -> (forall i, In i l -> involutive (w i)) -> seqop (pprod w l) (pprod w l) = idop.
Proof.
  intros N H. induction l as [|q l IH]; [reflexivity|]. inversion N as [|? ? Nq Nl]; subst. change (pprod w (q :: l)) with (seqop (gate1 q (prim_mat (w q))) (pprod w l)).
  assert (C : seqop (pprod w l) (gate1 q (prim_mat (w q))) = seqop (gate1 q (prim_mat (w q))) (pprod w l)) by (eapply loc_comm; [apply loc_pprod|apply loc_gate1|]; intros k I <-; exact (Nq I)).
  rewrite seqop_assoc, <- (seqop_assoc (pprod w l)), C, (seqop_assoc _ (pprod w l)), IH; [|exact Nl|intros; apply H; right; assumption].
  rewrite seqop_id_r. apply prim_invol, H. left. reflexivity.
Qed.
(** Conjugating the product by gates on one of its qubits. *)
Lemma pprod_conj w l q p k U V : NoDup l -> In q l -> loc (eq q) U -> loc (eq q) V -> seqop U (seqop (gate1 q (prim_mat (w q))) V) = scaleop k (gate1 q (prim_mat p)) ->
  seqop U (seqop (pprod w l) V) = scaleop k (pprod (fun i => if Nat.eqb i q then p else w i) l).
Proof.
  intros N I LU LV E. apply in_split in I as (a & b & ->). rewrite !pprod_app.
  assert (Na : ~ In q a /\ ~ In q b) by (apply NoDup_remove_2 in N; split; intros F; apply N, in_app_iff; auto). destruct Na as [Na Nb].
  change (pprod w (q :: b)) with (seqop (gate1 q (prim_mat (w q))) (pprod w b)). 
  assert (Q : pprod (fun i => if Nat.eqb i q then p else w i) (q :: b) = seqop (gate1 q (prim_mat p)) (pprod w b)).
  { change (seqop (gate1 q (prim_mat (if Nat.eqb q q then p else w q))) (pprod (fun i => if Nat.eqb i q then p else w i) b) = seqop (gate1 q (prim_mat p)) (pprod w b)). rewrite Nat.eqb_refl. f_equal.
    apply pprod_ext. intros i Hi. destruct (Nat.eqb_spec i q); [subst; contradiction|reflexivity]. }
  rewrite Q. rewrite (pprod_ext (fun i => if Nat.eqb i q then p else w i) w a) by (intros i Hi; destruct (Nat.eqb_spec i q); [subst; contradiction|reflexivity]).
  assert (CU : seqop U (pprod w a) = seqop (pprod w a) U) by (eapply loc_comm; [exact LU|apply loc_pprod|]; intros j <- F; exact (Na F)).
  assert (CV : seqop (pprod w b) V = seqop V (pprod w b)) by (eapply loc_comm; [apply loc_pprod|exact LV|]; intros j F <-; exact (Nb F)).
  rewrite <- seqop_assoc, <- (seqop_assoc U), CU, !seqop_assoc, CV. rewrite <- (seqop_assoc (gate1 q _) V), <- (seqop_assoc U), E.
  rewrite seqop_scale_l by (eapply loc_linear, loc_pprod). rewrite seqop_scale_r. reflexivity.
Qed.
(** ** The ladder *)
Definition cx (a b : nat) : Op := ctrlop [a] (gate1 b (prim_mat PX)).
Lemma loc_cx a b : loc (fun q => q = a \/ q = b) (cx a b).
Proof. apply loc_ctrl; [intros q [<-|[]]; auto|]. eapply loc_mono; [|apply loc_gate1]. intros q <-. auto. Qed.
Lemma cx_cx a b : a <> b -> seqop (cx a b) (cx a b) = idop.
Proof.
  intros H. unfold cx. rewrite (ctrl_seq (eq b)); [|apply loc_gate1|intros q [<-|[]] E; apply H; symmetry; exact E]. rewrite prim_invol by (unfold involutive; tauto). apply ctrl_id.
Qed.
Lemma z_eq q psi x : gate1 q (prim_mat PZ) psi x = (if x q then - psi x else psi x).
Proof. rewrite gate1_diag by reflexivity. destruct (x q); cbn [prim_mat mat2]; ring. Qed.
Lemma cx_z a b : a <> b -> seqop (cx a b) (seqop (gate1 b (prim_mat PZ)) (cx a b)) = seqop (gate1 a (prim_mat PZ)) (gate1 b (prim_mat PZ)).
Proof.
  intros H. extensionality psi. extensionality x. unfold seqop, cx. rewrite cnot_eq, !z_eq, !cnot_eq, upd_same, !upd_other by exact H.
  destruct (x a); [|destruct (x b); reflexivity]. rewrite upd_upd, negb_involutive, upd_id. destruct (x b); simpl; try ring.
Qed.
Definition ladder (a m : nat) : list Op := map (fun i => cx i (i + 1)) (seq a m).
Lemma ladder_z m : forall a, seqop (seqs (ladder a m)) (seqop (gate1 (a + m) (prim_mat PZ)) (seqs (rev (ladder a m)))) = pprod (fun _ => PZ) (seq a (S m)).
Proof.
  induction m as [|m IH]; intros a.
  - change (seqop (gate1 (a + 0) (prim_mat PZ)) idop = seqop (gate1 a (prim_mat PZ)) idop). rewrite Nat.add_0_r. reflexivity.
  - change (ladder a (S m)) with (cx a (a + 1) :: ladder (S a) m). cbn [rev seqs]. rewrite seqs_app. cbn [seqs]. rewrite seqop_id_r.
    replace (a + S m)%nat with (S a + m)%nat by lia. rewrite !seqop_assoc. rewrite <- (seqop_assoc _ (seqs (rev _))), <- (seqop_assoc (seqs (ladder (S a) m))). rewrite IH.
    replace (a + 1)%nat with (S a) by lia. change (pprod (fun _ => PZ) (seq (S a) (S m))) with (seqop (gate1 (S a) (prim_mat PZ)) (pprod (fun _ => PZ) (seq (S (S a)) m))).
    assert (C : seqop (pprod (fun _ => PZ) (seq (S (S a)) m)) (cx a (S a)) = seqop (cx a (S a)) (pprod (fun _ => PZ) (seq (S (S a)) m))).
    { eapply loc_comm; [apply loc_pprod|apply loc_cx|]. intros q I E. apply in_seq in I. cbv beta in E. destruct E; lia. }
    rewrite seqop_assoc, C, <- (seqop_assoc (gate1 (S a) _)), <- (seqop_assoc (cx a (S a))), cx_z by lia. rewrite seqop_assoc. reflexivity.
Qed.
Lemma ladder_inv m a : seqop (seqs (ladder a m)) (seqs (rev (ladder a m))) = idop.
Proof.
  rewrite <- (seqop_id_l (seqs (rev _))). apply seqs_palindrome; [reflexivity|]. unfold ladder. induction (seq a m) as [|i l IH]; constructor; [|exact IH]. apply cx_cx. lia.
Qed.
Lemma loc_seqs T l : (forall A, In A l -> loc T A) -> loc T (seqs l).
Proof. induction l as [|A l IH]; intros H; cbn [seqs]; constructor; [apply H; left; reflexivity|apply IH; intros; apply H; right; assumption]. Qed.
(** ** Basis changes *)
Definition yrot (s : R) : bool -> bool -> C := rot_mat RX_ (s * PI / 2).
Lemma half_angle s : s = 1%R \/ s = (-1)%R -> cos (s * PI / 2 / 2) = (/ sqrt 2)%R /\ sin (s * PI / 2 / 2) = (s * / sqrt 2)%R.
Proof.
  assert (C : cos (PI / 4) = (/ sqrt 2)%R) by (rewrite cos_PI4; field; pose proof (sqrt_lt_R0 2 ltac:(lra)); lra).
  assert (S : sin (PI / 4) = (/ sqrt 2)%R) by (rewrite sin_PI4; field; pose proof (sqrt_lt_R0 2 ltac:(lra)); lra). intros [->| ->].
  - replace (1 * PI / 2 / 2)%R with (PI / 4)%R by field. rewrite C, S. split; ring.
  - replace (-1 * PI / 2 / 2)%R with (- (PI / 4))%R by field. rewrite cos_neg, sin_neg, C, S. split; ring.
Qed.
Lemma conj_x q : seqop (gate1 q (prim_mat PH)) (seqop (gate1 q (prim_mat PZ)) (gate1 q (prim_mat PH))) = gate1 q (prim_mat PX).
Proof.
  rewrite !gate1_gate1. apply gate1_ext. intros a b. unfold mmul. assert (E := inv_sqrt2_sq). cbn [prim_mat mat2].
  set (h := / RtoC (sqrt 2)) in *. assert (E2 : h * h + h * h = RtoC 1) by (rewrite E, <- RtoC_plus; f_equal; field).
  destruct a, b; cbn [prim_mat mat2]; try ring; (etransitivity; [|exact E2]); ring.
Qed.
Lemma conj_y s q : s = 1%R \/ s = (-1)%R -> seqop (gate1 q (yrot s)) (seqop (gate1 q (prim_mat PZ)) (gate1 q (yrot (- s)))) = scaleop (RtoC s) (gate1 q (prim_mat PY)).
Proof.
  intros Hs. rewrite !gate1_gate1.
  destruct (half_angle s Hs) as [C1 S1]. destruct (half_angle (- s)) as [C2 S2]; [destruct Hs as [->| ->]; [right|left]; ring|].
  assert (E : ((/ sqrt 2) * (/ sqrt 2) = / 2)%R) by (rewrite <- Rinv_mult, sqrt_sqrt by lra; reflexivity).
  assert (G : scaleop (RtoC s) (gate1 q (prim_mat PY)) = gate1 q (fun a b => RtoC s * prim_mat PY a b)) by (extensionality psi; extensionality x; unfold scaleop; rewrite !gate1_eq; ring).
  rewrite G. apply gate1_ext. intros a b. set (h := (/ sqrt 2)%R) in *. unfold mmul, yrot.
  destruct a, b; cbn [rot_mat prim_mat mat2]; rewrite C1, S1, C2, S2; unfold Ci; destruct Hs as [-> | ->]; apply Ceq; simpl; lra.
Qed.
