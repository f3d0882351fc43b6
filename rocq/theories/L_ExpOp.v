(** The exponential of an operator on finitely many qubits: series, sums of commuting operators, conjugation, involutions, adjoint. *)
From Coq Require Import String Reals List Arith Bool Lia Lra FunctionalExtensionality.
From Coquelicot Require Import Coquelicot.
From Coq Require Import List.
From Verif Require Import S_Ops M_Block S_Den L_Ops L_Den L_Loc L_Adj L_Exp L_Tensor L_ExpMul.
Import ListNotations.
Open Scope R_scope.
Open Scope C_scope.

Definition eop (fs : list nat) (A : Op) : Op := gate fs (bexp (length fs) (matof fs A)).
Fixpoint opow (A : Op) (k : nat) : Op := match k with O => idop | S j => seqop (opow A j) A end.
Lemma loc_opow T A k : loc T A -> loc T (opow A k).
Proof. intros H. induction k as [|k IH]; cbn [opow]; [constructor|constructor; assumption]. Qed.
Lemma loc_eop fs A : loc (inl fs) (eop fs A).
Proof. constructor. intros q I. exact I. Qed.
Lemma loc_gate_eq fs A : NoDup fs -> loc (inl fs) A -> A = gate fs (matof fs A).
Proof. intros N H. apply (loc_is_gate (inl fs)); [exact N|intros q I; exact I|exact H]. Qed.
Lemma loc_op_eq fs A B : NoDup fs -> loc (inl fs) A -> loc (inl fs) B -> beq (length fs) (matof fs A) (matof fs B) -> A = B.
Proof. intros N HA HB H. rewrite (loc_gate_eq fs A N HA), (loc_gate_eq fs B N HB). apply gate_ext. exact H. Qed.
Lemma matof_opow fs A k : NoDup fs -> loc (inl fs) A -> beq (length fs) (matof fs (opow A k)) (bpow (length fs) (matof fs A) k).
Proof.
  intros N H. induction k as [|k IH]; intros r c Hr Hc; cbn [opow].
  - rewrite matof_id by assumption. reflexivity.
  - rewrite (matof_seq (inl fs)) by (try assumption; try (intros q I; exact I); apply loc_opow; exact H). rewrite bpow_S. apply csum_ext. intros z Hz. apply bits_length in Hz. rewrite IH by assumption. reflexivity.
Qed.
Lemma cser_scal k a l : cser a l -> cser (fun j => k * a j) (k * l).
Proof.
  intros [A B]. split.
  - eapply is_series_ext; [|exact (is_series_minus _ _ _ _ (is_series_scal (fst k) _ _ A) (is_series_scal (snd k) _ _ B))]. intros j. reflexivity.
  - eapply is_series_ext; [|exact (is_series_plus _ _ _ _ (is_series_scal (fst k) _ _ B) (is_series_scal (snd k) _ _ A))]. intros j. reflexivity.
Qed.
Lemma cser_scal_r k a l : cser a l -> cser (fun j => a j * k) (l * k).
Proof. intros H. rewrite Cmult_comm. eapply cser_ext; [|exact (cser_scal k a l H)]. intros j. apply Cmult_comm. Qed.
(** Pointwise series of the exponential. *)
Lemma eop_series fs A psi x : NoDup fs -> loc (inl fs) A -> cser (fun k => ifact k * opow A k psi x) (eop fs A psi x).
Proof.
  intros N H. unfold eop, gate.
  eapply cser_ext; [|apply (cser_csum (fun y k => ifact k * bpow (length fs) (matof fs A) k (map x fs) y * psi (upds x fs y)))].
  - intros k. cbv beta. rewrite (loc_gate_eq fs (opow A k) N (loc_opow _ _ _ H)). unfold gate. rewrite <- csum_scal. apply csum_ext. intros y Hy. apply bits_length in Hy.
    rewrite (matof_opow fs A k N H) by (try assumption; rewrite map_length; reflexivity). ring.
  - intros y Hy. apply bits_length in Hy. apply cser_scal_r. apply bexp_cser; [rewrite map_length; reflexivity|exact Hy].
Qed.
Lemma eop_unique fs A psi x l : NoDup fs -> loc (inl fs) A -> cser (fun k => ifact k * opow A k psi x) l -> eop fs A psi x = l.
Proof. intros N H S. exact (cser_unique _ _ _ (eop_series fs A psi x N H) S). Qed.
(** Operators on finitely many qubits are continuous. *)
Lemma loc_cser fs V (phi : nat -> St) (l : St) x : NoDup fs -> loc (inl fs) V -> (forall y, cser (fun k => phi k y) (l y)) -> cser (fun k => V (phi k) x) (V l x).
Proof.
  intros N H S. rewrite (loc_gate_eq fs V N H). unfold gate. apply (cser_csum (fun y k => matof fs V (map x fs) y * phi k (upds x fs y))). intros y _. apply cser_scal. apply S.
Qed.
Lemma loc_scal fs V k phi x : NoDup fs -> loc (inl fs) V -> V (fun y => k * phi y) x = k * V phi x.
Proof. intros N H. rewrite (loc_gate_eq fs V N H). unfold gate. rewrite <- csum_scal. apply csum_ext. intros y _. ring. Qed.
(** The exponential does not depend on the list of qubits used. *)
Lemma eop_indep fs gs A : NoDup fs -> NoDup gs -> loc (inl fs) A -> loc (inl gs) A -> eop fs A = eop gs A.
Proof.
  intros N M H K. extensionality psi. extensionality x. apply eop_unique; [exact N|exact H|]. apply eop_series; assumption.
Qed.
Lemma eop_zero fs : NoDup fs -> eop fs zeroop = idop.
Proof.
  intros N. extensionality psi. extensionality x. apply eop_unique; [exact N|constructor|].
  apply (cser_ext (fun k => match k with O => psi x | S _ => 0 end)).
  - intros [|k]; [unfold ifact; simpl fact; change (INR 1) with 1%R; rewrite Rinv_1; cbn [opow]; unfold idop; ring|]. cbn [opow]. unfold seqop, zeroop. ring.
  - assert (Q : forall z : R, is_series (fun k => match k with O => z | S _ => 0%R end) z).
    { intros z. pose proof (is_exp_Reals 0) as X. apply ps in X. rewrite exp_0 in X.
      assert (Y : is_series (fun k => z * (/ INR (fact k) * 0 ^ k))%R (z * 1)%R) by exact (is_series_scal_l z _ _ X). rewrite Rmult_1_r in Y.
      eapply is_series_ext; [|exact Y]. intros k. change (z * (/ INR (fact k) * 0 ^ k) = match k with O => z | S _ => 0 end)%R.
      destruct k as [|k]; [rewrite pow_O; change (fact 0) with 1%nat; change (INR 1) with 1%R; field|]. rewrite pow_i by lia. ring. }
    split; cbn [fst snd]; (eapply is_series_ext; [|apply Q]); intros k; destruct k; reflexivity.
Qed.
Lemma eop_add fs A B : NoDup fs -> loc (inl fs) A -> loc (inl fs) B -> seqop A B = seqop B A -> seqop (eop fs A) (eop fs B) = eop fs (addop A B).
Proof.
  intros N HA HB H. unfold eop. rewrite gate_gate by exact N. apply gate_ext. intros r c Hr Hc.
  rewrite bexp_add; [|intros r' c' Hr' Hc'|exact Hr|exact Hc].
  - apply bexp_ext; [|exact Hr|exact Hc]. intros r' c' _ _. unfold badd. rewrite matof_add. ring.
  - transitivity (matof fs (seqop A B) r' c'); [|rewrite H]; rewrite (matof_seq (inl fs)) by (try assumption; intros q I; exact I); reflexivity.
Qed.
Lemma eop_inv fs A : NoDup fs -> loc (inl fs) A -> seqop (eop fs A) (eop fs (scaleop (- (1)) A)) = idop.
Proof.
  intros N H. rewrite eop_add; [|exact N|exact H|constructor; exact H|].
  - replace (addop A (scaleop (- (1)) A)) with zeroop; [apply eop_zero, N|]. extensionality psi. extensionality x. unfold zeroop, addop, scaleop. ring.
  - extensionality psi. extensionality x. unfold seqop, scaleop. symmetry. apply (loc_scal fs); assumption.
Qed.
Lemma eop_comm fs A B : NoDup fs -> loc (inl fs) A -> loc (inl fs) B -> seqop A B = seqop B A -> seqop (eop fs A) B = seqop B (eop fs A).
Proof.
  intros N HA HB H. extensionality psi. extensionality x. change (B (eop fs A psi) x = eop fs A (B psi) x). symmetry. apply eop_unique; [exact N|exact HA|].
  eapply cser_ext; [|apply (loc_cser fs B (fun k y => ifact k * opow A k psi y) (eop fs A psi) x N HB)].
  - intros k. cbv beta. rewrite (loc_scal fs) by assumption. f_equal. revert x.
    assert (Q : seqop (opow A k) B = seqop B (opow A k)).
    { induction k as [|k IH]; [reflexivity|]. cbn [opow]. rewrite seqop_assoc, H, <- seqop_assoc, IH, seqop_assoc. reflexivity. }
    intros x. exact (f_equal (fun O : Op => O psi x) Q).
  - intros y. apply eop_series; assumption.
Qed.
(** exp(V A U) = V exp(A) U for mutually inverse U, V. *)
Lemma eop_conj fs U V A : NoDup fs -> loc (inl fs) U -> loc (inl fs) V -> loc (inl fs) A -> seqop U V = idop -> seqop V U = idop ->
  eop fs (seqop U (seqop A V)) = seqop U (seqop (eop fs A) V).
Proof.
  intros N HU HV HA UV VU. extensionality psi. extensionality x.
  change (eop fs (seqop U (seqop A V)) psi x = V (eop fs A (U psi)) x). apply eop_unique; [exact N|apply loc_seq; [exact HU|apply loc_seq; assumption]|].
  assert (Q : forall k, opow (seqop U (seqop A V)) k = seqop U (seqop (opow A k) V)).
  { induction k as [|k IH]; cbn [opow]; [rewrite seqop_id_l, UV; reflexivity|]. rewrite IH, !seqop_assoc. f_equal. f_equal. rewrite <- (seqop_assoc V U), VU, seqop_id_l. reflexivity. }
  eapply cser_ext; [|apply (loc_cser fs V (fun k y => ifact k * opow A k (U psi) y) (eop fs A (U psi)) x N HV)].
  - intros k. cbv beta. rewrite (loc_scal fs) by assumption. f_equal. exact (f_equal (fun O : Op => O psi x) (eq_sym (Q k))).
  - intros y. apply eop_series; assumption.
Qed.
