(** Diagonal Hamiltonians: their operators and their evolutions. *)
From Coq Require Import String Reals List Arith Bool Lia Lra FunctionalExtensionality Permutation.
From Coquelicot Require Import Coquelicot.
From Coq Require Import List.
From Verif Require Import S_Sets S_Ops L_Ops M_QubitSupport M_Block S_Den L_Den L_Loc L_Adj L_Gates M_BlockOps L_Exp L_ExpMul L_ExpOp L_PauliExp S_PSR P_PSR S_State L_Inner P_States P_Unitary P_Operators P_Qft.
Import ListNotations.
Open Scope R_scope.
Open Scope C_scope.

Definition rdiag (E : asg -> R) : Op := fun psi x => RtoC (E x) * psi x.
Lemma rdiag_ext E F : (forall x, E x = F x) -> rdiag E = rdiag F.
Proof. intros H. extensionality psi. extensionality x. unfold rdiag. rewrite H. reflexivity. Qed.
Lemma rdiag_seq E F : seqop (rdiag E) (rdiag F) = rdiag (fun x => E x * F x)%R.
Proof. extensionality psi. extensionality x. unfold seqop, rdiag. rewrite RtoC_mult. ring. Qed.
Lemma rdiag_add E F : addop (rdiag E) (rdiag F) = rdiag (fun x => E x + F x)%R.
Proof. extensionality psi. extensionality x. unfold addop, rdiag. rewrite RtoC_plus. ring. Qed.
Lemma rdiag_scale k E : scaleop (RtoC k) (rdiag E) = rdiag (fun x => k * E x)%R.
Proof. extensionality psi. extensionality x. unfold scaleop, rdiag. rewrite RtoC_mult. ring. Qed.
Lemma rdiag_id : rdiag (fun _ => 1%R) = idop.
Proof. extensionality psi. extensionality x. unfold rdiag, idop. ring. Qed.
Lemma rdiag_zero : rdiag (fun _ => 0%R) = zeroop.
Proof. extensionality psi. extensionality x. unfold rdiag, zeroop. ring. Qed.
(** The sign of Z on a basis state. *)
Definition zs (x : asg) (q : nat) : R := if x q then (-1)%R else 1%R.
Lemma z_rdiag q : gate1 q (prim_mat PZ) = rdiag (fun x => zs x q).
Proof. extensionality psi. extensionality x. rewrite gate1_diag by reflexivity. unfold rdiag, zs. generalize (psi x); intros [a b]. destruct (x q); cbn [prim_mat mat2]; apply Ceq; simpl; ring. Qed.
Lemma n_rdiag q : gate1 q (prim_mat (PN true)) = rdiag (fun x => b2r (x q)).
Proof. extensionality psi. extensionality x. rewrite gate1_diag by reflexivity. unfold rdiag, b2r. destruct (x q); reflexivity. Qed.
Lemma b2r_zs x q : b2r (x q) = ((1 - zs x q) / 2)%R.
Proof. unfold b2r, zs. destruct (x q); field. Qed.
Lemma zs_sq x q : (zs x q * zs x q = 1)%R.
Proof. unfold zs. destruct (x q); ring. Qed.

Lemma opow_rdiag c E k psi x : opow (scaleop c (rdiag E)) k psi x = cpow (c * RtoC (E x)) k * psi x.
Proof.
  revert psi x. induction k as [|k IH]; intros psi x; cbn [opow cpow]; [unfold idop; ring|]. unfold seqop. unfold scaleop at 1, rdiag at 1. rewrite IH. ring.
Qed.
Lemma scalar_series (t : R) : cser (fun k => ifact k * cpow (- Ci * RtoC t) k) (cis (- t)).
Proof.
  pose (psi := fun _ : asg => RtoC 1). pose (x := fun _ : nat => false).
  assert (N : NoDup (@nil nat)) by constructor. assert (L : loc (inl []) (scaleop (- Ci * RtoC t) (rdiag (fun _ => 1%R)))) by (rewrite rdiag_id; constructor; constructor).
  pose proof (eop_series [] _ psi x N L) as S. 
  assert (E : eop [] (scaleop (- Ci * RtoC t) (rdiag (fun _ => 1%R))) psi x = cis (- t)).
  { rewrite rdiag_id. rewrite eop_invol; [|exact N|constructor|reflexivity]. unfold rotop, addop, scaleop, idop, psi, cis. rewrite cos_neg, sin_neg. unfold Ci. apply Ceq; simpl; ring. }
  rewrite E in S. eapply cser_ext; [|exact S]. intros k. cbv beta. rewrite opow_rdiag. unfold psi. rewrite !Cmult_1_r. reflexivity.
Qed.
(** exp(-i t E) for a diagonal E. *)
Lemma eop_rdiag fs t E : NoDup fs -> loc (inl fs) (rdiag E) -> eop fs (scaleop (- Ci * RtoC t) (rdiag E)) = diag (fun x => - (t * E x))%R.
Proof.
  intros N L. extensionality psi. extensionality x. apply eop_unique; [exact N|constructor; exact L|]. unfold diag.
  apply (cser_ext (fun k => (ifact k * cpow (- Ci * RtoC (t * E x)) k) * psi x)).
  - intros k. rewrite opow_rdiag, RtoC_mult. rewrite Cmult_assoc. ring.
  - apply cser_scal_r, scalar_series.
Qed.
Lemma evo_rdiag rho g e E : den rho g = rdiag E -> den rho (BEvo g e) = diag (fun x => - (ang rho e * E x))%R.
Proof. intros H. rewrite den_evo, H. apply eop_rdiag; [apply NoDup_nodup|]. rewrite <- H. apply den_loc_u. Qed.
