(** C95: what the assertion that two blocks are the same establishes. *)
From Coq Require Import String Reals List Arith Bool Lia Lra FunctionalExtensionality.
From Coquelicot Require Import Coquelicot.
From Coq Require Import List.
From Verif Require Import S_Ops S_Den M_QubitSupport M_Block M_BlockOps M_Convert L_Ops L_Den L_Gates P_Qft P_States M_Equality P_Equality M_SameBlock.
Import ListNotations.
Open Scope R_scope.
Open Scope nat_scope.

(** The operations of which a passed assertion says everything. *)
Inductive gate_like : block -> Prop :=
| gl_prim p q : (forall s, p <> PN s) -> gate_like (BPrim p q)
| gl_rot r q e : gate_like (BRot r q e)
| gl_u q x y z : gate_like (BU q x y z)
| gl_swap a b : gate_like (BSwap a b)
| gl_cswap c a b : gate_like (BCSwap c a b)
| gl_ctrl cs p q : (forall s, p <> PN s) -> gate_like (BCtrl cs (BPrim p q))
| gl_pctrl cs r q e : gate_like (BPCtrl cs (BRot r q e)).
(** A single parameter on the left is not compared with a larger expression that contains it. *)
Definition apart_e (a b : expr) : Prop := forall s, a = EVar s -> In s (vars b) -> b = EVar s.

Section Same.
  Variable set_iter : list nat -> list nat.
  Variable sym_eq : expr -> expr -> bool.
  Variable expressions : block -> list expr.
  Notation same := (assert_same_block set_iter sym_eq expressions).

  Lemma prim_class_eq p p' : (forall s, p <> PN s) -> prim_class p = prim_class p' -> p = p'.
  Proof. intros N H. destruct (prim_class_inj p p' H) as [E|(s & s' & E & _)]; [exact E|destruct (N s E)]. Qed.
  Lemma local_inj l l' : support_eqb (SLocal l) (SLocal l') = true -> l = l'.
  Proof. intros H. apply support_eqb_true in H. congruence. Qed.

  (** If the assertion passes for two gates, they are the same operation. *)
  Theorem C95_sound : forall a b rho, gate_like a -> gate_like b -> (forall x y, sym_eq x y = true -> forall rho, ev rho x = ev rho y) ->
    Forall (fun p => apart_e (fst p) (snd p)) (combine (params expressions a) (params expressions b)) -> same a b = true -> den rho a = den rho b.
  Proof.
    intros a b rho Ha Hb S A H. unfold assert_same_block in H. apply andb_true_iff in H as [H HP]. apply andb_true_iff in H as [HC HS]. unfold same_support in HS.
    assert (ANG : forall x y, ev rho x = ev rho y -> ang rho x = ang rho y) by (intros x y E; unfold ang; rewrite E; reflexivity).
    destruct Ha as [p q N|r q e|q x y z|u v|c u v|cs p q N|cs r q e], Hb as [p' q' N'|r' q' e'|q' x' y' z'|u' v'|c' u' v'|cs' p' q' N'|cs' r' q' e'];
      cbn [same_class] in HC; try discriminate HC; cbn [bsup locals] in HS; apply local_inj in HS; cbn [parametric_class andb params combine forallb fst snd length Nat.eqb] in HP, A.
    - apply Nat.eqb_eq in HC. apply prim_class_eq in HC; [|exact N]. injection HS as ->. subst. reflexivity.
    - apply Nat.eqb_eq, rot_class_inj in HC. injection HS as ->. subst. rewrite andb_true_r in HP. inversion A as [|? ? A1 _]; subst. cbn [den]. rewrite (ANG e e'); [reflexivity|]. apply (expr_eq_sound sym_eq S); assumption.
    - injection HS as ->. inversion A as [|? ? A1 A']; subst. inversion A' as [|? ? A2 A'']; subst. inversion A'' as [|? ? A3 _]; subst. cbn [fst snd] in *.
      apply andb_true_iff in HP as [P1 HP]. apply andb_true_iff in HP as [P2 HP]. apply andb_true_iff in HP as [P3 _]. cbn [den].
      rewrite (ANG x x'), (ANG y y'), (ANG z z'); [reflexivity| | |]; apply (expr_eq_sound sym_eq S); assumption.
    - injection HS as -> ->. reflexivity.
    - injection HS as -> -> ->. reflexivity.
    - apply Nat.eqb_eq in HC. apply prim_class_eq in HC; [|exact N]. apply app_inj_tail in HS as [-> ->]. subst. reflexivity.
    - apply Nat.eqb_eq, rot_class_inj in HC. apply app_inj_tail in HS as [-> ->]. subst. rewrite andb_true_r in HP. inversion A as [|? ? A1 _]; subst. cbn [den]. rewrite (ANG e e'); [reflexivity|]. apply (expr_eq_sound sym_eq S); assumption.
  Qed.
  (** Every block passes the comparison with itself, and two blocks that pass have the same qubits. *)
  Theorem C95_reflexive : forall b, (forall x, sym_eq x x = true) -> same b b = true.
  Proof.
    intros b R. unfold assert_same_block, same_support. rewrite (proj2 (support_eqb_true _ _) eq_refl).
    assert (C : same_class b b = true) by (induction b; cbn [same_class]; try reflexivity; try apply Nat.eqb_refl; assumption). rewrite C, Nat.eqb_refl. cbn [andb].
    assert (E : forall l, forallb (fun p => expr_eq sym_eq (fst p) (snd p)) (combine l l) = true).
    { induction l as [|e l IH]; [reflexivity|]. cbn [combine forallb fst snd]. rewrite IH, andb_true_r. destruct e; cbn [expr_eq]; try apply R. apply String.eqb_refl. }
    rewrite E. destruct (_ && _); reflexivity.
  Qed.
  Theorem C95_support : forall a b, same a b = true -> bsup set_iter a = bsup set_iter b /\ same_class a b = true.
  Proof. intros a b H. unfold assert_same_block in H. apply andb_true_iff in H as [H _]. apply andb_true_iff in H as [H1 H2]. split; [apply support_eqb_true, H2|exact H1]. Qed.

  (** The check of the tests that taking the dagger twice gives the same block passes for every block, if sympy removes double negations and conjugations. *)
  Theorem C95_dagger : forall b, (forall e, sym_eq e e = true /\ sym_eq e (ENeg (ENeg e)) = true /\ sym_eq e (EConj (EConj e)) = true) -> same b (dagger (dagger b)) = true.
  Proof.
    intros b R.
    assert (RN : forall e, expr_eq sym_eq e (ENeg (ENeg e)) = true) by (intros e; destruct e; cbn [expr_eq]; try apply R; cbn [vars existsb]; rewrite String.eqb_refl; reflexivity).
    assert (RC : forall e, expr_eq sym_eq e (EConj (EConj e)) = true) by (intros e; destruct e; cbn [expr_eq]; try apply R; cbn [vars existsb]; rewrite String.eqb_refl; reflexivity).
    assert (E : forall l, forallb (fun p => expr_eq sym_eq (fst p) (snd p)) (combine l l) = true).
    { induction l as [|e l IH]; [reflexivity|]. cbn [combine forallb fst snd]. rewrite IH, andb_true_r. destruct e; cbn [expr_eq]; try apply R. apply String.eqb_refl. }
    assert (D : forall bs, rev (map dagger (rev (map dagger bs))) = map (fun x => dagger (dagger x)) bs) by (intros bs; rewrite map_rev, rev_involutive, map_map; reflexivity).
    assert (S : bsup set_iter (dagger (dagger b)) = bsup set_iter b /\ same_class b (dagger (dagger b)) = true /\
      length (params expressions b) = length (params expressions (dagger (dagger b))) /\
      forallb (fun p => expr_eq sym_eq (fst p) (snd p)) (combine (params expressions b) (params expressions (dagger (dagger b)))) = true).
    { induction b using block_ind'; try (cbn [dagger bsup same_class params]; repeat split; reflexivity).
      - destruct p; repeat split; reflexivity.
      - cbn [dagger bsup same_class params combine forallb fst snd length]. rewrite Nat.eqb_refl. unfold neg_param. rewrite RN. repeat split.
      - cbn [dagger bsup same_class params combine forallb fst snd length]. unfold neg_param. rewrite !RN. repeat split.
      - destruct IHb as (I1 & I2 & I3 & I4). cbn [dagger bsup same_class params]. rewrite I1. repeat split. exact I2.
      - destruct IHb as (I1 & I2 & I3 & I4). cbn [dagger bsup same_class params]. rewrite I1. repeat split; assumption.
      - destruct IHb as (I1 & I2 & I3 & I4). cbn [dagger bsup same_class params combine forallb fst snd length]. unfold dagger_expression. rewrite I1, RC. repeat split.
      - cbn [dagger bsup same_class params]. rewrite D, map_map. repeat split. f_equal. apply map_ext_Forall. eapply Forall_impl; [|exact H]. intros x K. apply K.
      - cbn [dagger bsup same_class params]. rewrite D, map_map. repeat split. f_equal. apply map_ext_Forall. eapply Forall_impl; [|exact H]. intros x K. apply K.
      - cbn [dagger bsup same_class params]. rewrite D, map_map. repeat split. f_equal. apply map_ext_Forall. eapply Forall_impl; [|exact H]. intros x K. apply K.
      - cbn [dagger bsup same_class params combine forallb fst snd length]. unfold neg_param. rewrite RN, E. repeat split. }
    destruct S as (S1 & S2 & S3 & S4). unfold assert_same_block, same_support. rewrite S1, S2, S3, S4, Nat.eqb_refl, (proj2 (support_eqb_true _ _) eq_refl). cbn [andb]. destruct (parametric_class b && _); reflexivity.
  Qed.

  Definition one : (nat -> bool) -> C := fun _ => RtoC 1.
  Lemma den_differ A B x : A one x <> B one x -> A <> B :> Op.
  Proof. intros H E. apply H. rewrite E. reflexivity. Qed.
  Lemma den_z rho : den rho (BPrim PZ 0) one (fun _ => true) = RtoC (-1).
  Proof. cbn [den]. rewrite gate1_eq. unfold one. cbn [prim_mat]. unfold RtoC, Cmult, Cplus. cbn. f_equal; ring. Qed.
  Lemma den_x rho : den rho (BPrim PX 0) one (fun _ => true) = RtoC 1.
  Proof. cbn [den]. rewrite gate1_eq. unfold one. cbn [prim_mat]. unfold RtoC, Cmult, Cplus. cbn. f_equal; ring. Qed.
  Lemma one_ne : RtoC 1 <> RtoC (-1). Proof. intros E. apply (f_equal fst) in E. cbn in E. lra. Qed.
  (** The parts of composite blocks are not compared: chain(X(0)) passes for chain(Z(0)). *)
  Theorem C95_composite_refuted : forall rho, same (BChain [BPrim PX 0]) (BChain [BPrim PZ 0]) = true /\ den rho (BChain [BPrim PX 0]) <> den rho (BChain [BPrim PZ 0]).
  Proof.
    intros rho. split; [unfold assert_same_block, same_support; cbn [same_class bsup map parametric_class andb]; rewrite (proj2 (support_eqb_true _ _) eq_refl); reflexivity|].
    apply (den_differ _ _ (fun _ => true)). cbn [den fold_right]. unfold seqop, idop.
    change (den rho (BPrim PX 0) one (fun _ => true) <> den rho (BPrim PZ 0) one (fun _ => true)). rewrite den_x, den_z. apply one_ne.
  Qed.
  (** Nor is the scaled block: 2 X(0) passes for 2 Z(0). *)
  Theorem C95_scale_refuted : forall rho, (forall x, sym_eq x x = true) -> let two := ECst (RtoC 2) in
    same (BScale (BPrim PX 0) two) (BScale (BPrim PZ 0) two) = true /\ den rho (BScale (BPrim PX 0) two) <> den rho (BScale (BPrim PZ 0) two).
  Proof.
    intros rho R two. split; [unfold assert_same_block, same_support; cbn [same_class bsup]; cbn; rewrite R; reflexivity|].
    apply (den_differ _ _ (fun _ => true)). change (scaleop (RtoC 2) (den rho (BPrim PX 0)) one (fun _ => true) <> scaleop (RtoC 2) (den rho (BPrim PZ 0)) one (fun _ => true)).
    unfold scaleop. rewrite den_x, den_z. intros E. apply (f_equal fst) in E. cbn in E. lra.
  Qed.
  (** N projecting on |1> passes for N projecting on |0>. *)
  Theorem C95_state_refuted : forall rho q, same (BPrim (PN true) q) (BPrim (PN false) q) = true /\ den rho (BPrim (PN true) q) <> den rho (BPrim (PN false) q).
  Proof.
    intros rho q. split; [unfold assert_same_block, same_support; cbn [same_class bsup parametric_class andb]; rewrite (proj2 (support_eqb_true _ _) eq_refl); reflexivity|].
    intros E. apply (f_equal (fun F : Op => fst (F (fun _ => RtoC 1) (fun _ => false)))) in E. cbn [den] in E. rewrite !gate1_eq in E. cbn in E. lra.
  Qed.
  (** RX(0, x) passes for RX(0, 2*x), but not the other way round. *)
  Theorem C95_parameter_refuted : forall q s, let twice := EMul (ECst (RtoC 2)) (EVar s) in
    same (BRot RX_ q (EVar s)) (BRot RX_ q twice) = true /\ same (BRot RX_ q twice) (BRot RX_ q (EVar s)) = false /\
    exists rho, den rho (BRot RX_ q (EVar s)) <> den rho (BRot RX_ q twice).
  Proof.
    intros q s twice. unfold assert_same_block, same_support. cbn [same_class bsup parametric_class andb params combine forallb fst snd length Nat.eqb rot_class]. rewrite (proj2 (support_eqb_true _ _) eq_refl).
    split; [cbn [andb expr_eq twice vars app existsb]; rewrite String.eqb_refl; reflexivity|]. split; [reflexivity|].
    exists (fun _ => PI). intros E. apply (f_equal (fun F : Op => fst (F (fun _ => RtoC 1) (fun _ => false)))) in E. cbn [den] in E. rewrite !gate1_eq in E.
    unfold ang, twice, rot_mat in E. cbn in E.
    replace ((2 * PI - 0 * 0) / 2)%R with PI in E by field. rewrite ?cos_PI2, ?sin_PI2, ?cos_PI, ?sin_PI in E. lra.
  Qed.
  (** A rotation by x + y passes for itself and for a rotation by y + x if sympy says so; not on other qubits, not about another axis. *)
  Example C95_example : let xy := EAdd (EVar "x") (EVar "y") in let yx := EAdd (EVar "y") (EVar "x") in
    let a := BPCtrl [0] (BRot RX_ 1 xy) in let b := BPCtrl [0] (BRot RX_ 1 yx) in
    gate_like a /\ gate_like b /\ Forall (fun p => apart_e (fst p) (snd p)) (combine (params expressions a) (params expressions b)) /\ same a b = sym_eq xy yx /\
    same a (BPCtrl [1] (BRot RX_ 0 xy)) = false /\ same a (BPCtrl [0] (BRot RY_ 1 xy)) = false /\ same a (BRot RX_ 1 xy) = false.
  Proof.
    intros xy yx a b. split; [constructor|]. split; [constructor|]. split; [constructor; [|constructor]; intros s E; discriminate E|].
    split; [|repeat split]. cbn. destruct (sym_eq _ _); reflexivity.
  Qed.
End Same.
Print Assumptions C95_sound.
Print Assumptions C95_reflexive.
Print Assumptions C95_support.
Print Assumptions C95_composite_refuted.
Print Assumptions C95_scale_refuted.
Print Assumptions C95_state_refuted.
Print Assumptions C95_parameter_refuted.
Print Assumptions C95_dagger.
