(** Products of elementary gates. *)
From Coq Require Import String Reals List Arith Bool Lia Lra FunctionalExtensionality Permutation.
From Coquelicot Require Import Coquelicot.
From Coq Require Import List.
From Verif Require Import S_Ops L_Ops M_Block S_Den L_Den L_Loc L_Exp.
Import ListNotations.
Open Scope R_scope.
Open Scope C_scope.

Definition mmul (A B : bool -> bool -> C) : bool -> bool -> C := fun r c => A r false * B false c + A r true * B true c.
Lemma gate1_ext q m m' : (forall a b, m a b = m' a b) -> gate1 q m = gate1 q m'.
Proof. intros H. apply gate_ext. intros r c Hr Hc. destruct r as [|a [|? ?]]; try discriminate. destruct c as [|b [|? ?]]; try discriminate. apply H. Qed.
Lemma gate1_gate1 q m m' : seqop (gate1 q m) (gate1 q m') = gate1 q (mmul m' m).
Proof.
  unfold gate1. rewrite gate_gate by (repeat constructor; simpl; tauto). apply gate_ext. intros r c Hr Hc.
  destruct r as [|a [|? ?]]; try discriminate. destruct c as [|b [|? ?]]; try discriminate. unfold bmul, mmul. simpl. ring.
Qed.
Lemma gate1_id q m : (forall a b, m a b = (if Bool.eqb a b then RtoC 1 else RtoC 0)) -> gate1 q m = idop.
Proof.
  intros H. unfold gate1. rewrite <- (gate_bid [q]). apply gate_ext. intros r c Hr Hc. destruct r as [|a [|? ?]]; try discriminate. destruct c as [|b [|? ?]]; try discriminate.
  simpl. rewrite H. destruct a, b; reflexivity.
Qed.
Lemma cis_add s t : cis s * cis t = cis (s + t)%R.
Proof. unfold cis. apply Ceq; simpl; rewrite ?cos_plus, ?sin_plus; ring. Qed.
Lemma cis_0 : cis 0 = RtoC 1.
Proof. unfold cis. rewrite cos_0, sin_0. reflexivity. Qed.
Lemma rot_mul r s t a b : mmul (rot_mat r t) (rot_mat r s) a b = rot_mat r (s + t)%R a b.
Proof.
  assert (E : ((s + t) / 2)%R = (s / 2 + t / 2)%R) by lra. unfold mmul. destruct r; simpl; rewrite ?E.
  - destruct a, b; simpl; apply Ceq; simpl; rewrite ?cos_plus, ?sin_plus; ring.
  - destruct a, b; simpl; apply Ceq; simpl; rewrite ?cos_plus, ?sin_plus; ring.
  - destruct a, b; simpl; apply Ceq; simpl; rewrite ?cos_neg, ?sin_neg, ?cos_plus, ?sin_plus; ring.
  - destruct a, b; simpl; apply Ceq; simpl; rewrite ?cos_plus, ?sin_plus; ring.
Qed.
Lemma rot_0 r a b : rot_mat r 0 a b = (if Bool.eqb a b then RtoC 1 else RtoC 0).
Proof.
  assert (E : (0 / 2)%R = 0%R) by lra. destruct r; simpl; rewrite ?E, ?Ropp_0; unfold cis; rewrite ?cos_0, ?sin_0; destruct a, b; simpl; apply Ceq; simpl; ring.
Qed.
Lemma rot_id r q : gate1 q (rot_mat r 0) = idop.
Proof. apply gate1_id. apply rot_0. Qed.
Lemma rot_seq r q s t : seqop (gate1 q (rot_mat r s)) (gate1 q (rot_mat r t)) = gate1 q (rot_mat r (s + t)).
Proof. rewrite gate1_gate1. apply gate1_ext. apply rot_mul. Qed.
Lemma rot_inv r q t : seqop (gate1 q (rot_mat r t)) (gate1 q (rot_mat r (- t))) = idop.
Proof. rewrite rot_seq, Rplus_opp_r. apply rot_id. Qed.
Lemma sqrt2_sq : RtoC (sqrt 2) * RtoC (sqrt 2) = RtoC 2.
Proof. rewrite <- RtoC_mult. f_equal. apply sqrt_sqrt. lra. Qed.
Lemma sqrt2_ne : RtoC (sqrt 2) <> RtoC 0.
Proof. intros H. injection H as H. pose proof (sqrt_lt_R0 2 ltac:(lra)). lra. Qed.
Lemma inv_sqrt2_sq : / RtoC (sqrt 2) * / RtoC (sqrt 2) = RtoC (/ 2).
Proof.
  rewrite <- RtoC_inv by (pose proof (sqrt_lt_R0 2 ltac:(lra)); lra). rewrite <- RtoC_mult. f_equal. rewrite <- Rinv_mult. rewrite sqrt_sqrt by lra. reflexivity.
Qed.
Definition involutive (p : prim) : Prop := p = PX \/ p = PY \/ p = PZ \/ p = PI_ \/ p = PH.
Lemma prim_invol p q : involutive p -> seqop (gate1 q (prim_mat p)) (gate1 q (prim_mat p)) = idop.
Proof.
  intros H. rewrite gate1_gate1. apply gate1_id. intros a b. unfold mmul. destruct H as [-> | [-> | [-> | [-> | ->]]]]; destruct a, b; cbn [prim_mat mat2 Bool.eqb]; try (apply Ceq; simpl; ring).
  - assert (E : forall x : C, x * x = RtoC (/2) -> x * x + - x * - x = RtoC 1) by (intros x Hx; replace (- x * - x) with (x * x) by ring; rewrite Hx, <- RtoC_plus; f_equal; field). apply E, inv_sqrt2_sq.
  - assert (E : forall x : C, x * x = RtoC (/2) -> x * x + x * x = RtoC 1) by (intros x Hx; rewrite Hx, <- RtoC_plus; f_equal; field). apply E, inv_sqrt2_sq.
Qed.
(** Controlled gates with the same controls. *)
Lemma ctrl_seq (T : nat -> Prop) cs A B : loc T B -> (forall q, In q cs -> T q -> False) -> seqop (ctrlop cs A) (ctrlop cs B) = ctrlop cs (seqop A B).
Proof.
  intros HB Hd. extensionality psi. extensionality x. unfold seqop. unfold ctrlop at 1.
  assert (E : B (ctrlop cs A psi) x = if forallb x cs then B (A psi) x else B psi x).
  { unfold ctrlop. rewrite (loc_mix T B cs (A psi) psi HB Hd). reflexivity. }
  rewrite E. unfold ctrlop. destruct (forallb x cs); reflexivity.
Qed.
Lemma ctrl_id cs : ctrlop cs idop = idop.
Proof. extensionality psi. extensionality x. unfold ctrlop, idop. destruct (forallb x cs); reflexivity. Qed.
(** Evolution for no time. *)
Lemma evo_0 rho g t : ang rho t = 0%R -> den rho (BEvo g t) = idop.
Proof.
  intros H. cbn [den]. rewrite <- (gate_bid (uqubits g)). apply gate_ext. intros r c Hr Hc.
  rewrite (bexp_diag _ (fun _ => 0%R)); [unfold bid; rewrite cis_0; reflexivity| |exact Hr|exact Hc].
  intros r' c' _ _. rewrite H. destruct (eqbits r' c'); apply Ceq; simpl; ring.
Qed.
(** Palindromes of inverse operators. *)
Fixpoint seqs (l : list Op) : Op := match l with [] => idop | A :: r => seqop A (seqs r) end.
Lemma seqs_app l1 l2 : seqs (l1 ++ l2) = seqop (seqs l1) (seqs l2).
Proof. induction l1 as [|A l IH]; simpl; [reflexivity|]. rewrite IH. reflexivity. Qed.
Lemma seqs_palindrome l r m : m = idop -> Forall2 (fun A B => seqop A B = idop) l r -> seqop (seqs l) (seqop m (seqs (rev r))) = idop.
Proof.
  intros -> F. rewrite seqop_id_l. induction F as [|A B l r H F IH]; [reflexivity|]. simpl. rewrite seqs_app. simpl. rewrite seqop_id_r.
  rewrite seqop_assoc. rewrite <- (seqop_assoc (seqs l)). rewrite IH, seqop_id_l. exact H.
Qed.
Lemma dchain_seqs rho bs : dchain rho bs = seqs (map (den rho) bs).
Proof. induction bs as [|b bs IH]; simpl; [reflexivity|]. rewrite <- IH. reflexivity. Qed.
Lemma seqs_ids l : (forall A, In A l -> A = idop) -> seqs l = idop.
Proof. induction l as [|A l IH]; intros H; [reflexivity|]. simpl. rewrite (H A (or_introl eq_refl)), IH; [reflexivity|intros B HB; apply H; right; exact HB]. Qed.
