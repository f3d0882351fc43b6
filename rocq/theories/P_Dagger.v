(** C04: dagger() is the adjoint. *)
From Coq Require Import String Reals List Arith Bool Lia Lra FunctionalExtensionality.
From Coquelicot Require Import Coquelicot.
From Coq Require Import List.
From Verif Require Import S_Ops L_Ops M_Block S_Den L_Den L_Loc M_BlockOps L_Adj.
Import ListNotations.
Open Scope R_scope.
Open Scope C_scope.

(** Blocks for which dagger() is right.  Composite blocks, all standard gates, rotations, controlled gates
    (controls not among the targets), scale factors, and: projectors |k><k|, Hermitian matrix blocks,
    evolutions with a Hermitian generator, and U only with equal outer angles. *)
Fixpoint dag_ok (rho : env) (b : block) : Prop :=
  match b with
  | BPrim _ _ | BRot _ _ _ | BSwap _ _ => True
  | BProj k br qs => k = br /\ NoDup qs
  | BU _ phi _ omega => ang rho phi = ang rho omega
  | BCSwap c a b => c <> a /\ c <> b
  | BCtrl cs b | BPCtrl cs b => (forall q, In q cs -> In q (qubits b) -> False) /\ dag_ok rho b
  | BScale b _ => dag_ok rho b
  | BChain bs | BKron bs | BAdd bs => fold_right (fun b k => dag_ok rho b /\ k) True bs
  | BMat m qs => NoDup qs /\
      forall r c, length r = length qs -> length c = length qs -> nmat m r c = Cconj (nmat m c r)
  | BEvo g _ => adj_on (uqubits g) (den rho g) (den rho g)
  end.

Lemma qubits_dagger b q : In q (qubits (dagger b)) <-> In q (qubits b).
Proof.
  assert (H : forall bs, Forall (fun b => In q (qubits (dagger b)) <-> In q (qubits b)) bs ->
    (In q (flat_map qubits (rev (map dagger bs))) <-> In q (flat_map qubits bs))).
  { intros bs HF. rewrite Forall_forall in HF. rewrite !in_flat_map. split.
    - intros (x & Hx & Hq). rewrite <- in_rev in Hx. apply in_map_iff in Hx. destruct Hx as (y & <- & Hy).
      exists y. split; [exact Hy|]. apply HF; assumption.
    - intros (y & Hy & Hq). exists (dagger y). split; [|apply HF; assumption].
      rewrite <- in_rev. apply in_map; exact Hy. }
  induction b using block_ind'; cbn [dagger qubits]; try tauto; try (apply H; assumption).
  - destruct p; tauto.
  - rewrite !in_app_iff. tauto.
  - rewrite !in_app_iff. tauto.
Qed.

Lemma loc_incl rho b fs : (forall q, In q (qubits b) -> In q fs) -> loc (inl fs) (den rho b).
Proof. intro H. eapply loc_mono; [|apply den_loc]. exact H. Qed.

Lemma adj_gate1 fs q m m' : NoDup fs -> In q fs ->
  (forall a b, m' a b = Cconj (m b a)) -> adj_on fs (gate1 q m) (gate1 q m').
Proof.
  intros Hn Hq H. apply adj_gate; auto.
  - repeat constructor; simpl; tauto.
  - simpl; intros x [<-|[]]; exact Hq.
  - intros [|a [|a1 a2]] [|b [|b1 b2]]; simpl; intros; try discriminate. apply H.
Qed.

Lemma cis_conj t : Cconj (cis t) = cis (- t).
Proof. unfold cis, Cconj. simpl. rewrite cos_neg, sin_neg. reflexivity. Qed.
Lemma Cconj_inv_sqrt2 : Cconj (/ RtoC (sqrt 2)) = / RtoC (sqrt 2).
Proof.
  rewrite <- RtoC_inv; [apply Cconj_RtoC|]. apply Rgt_not_eq, sqrt_lt_R0; lra.
Qed.
Lemma rot_adj r t a b : rot_mat r (- t) a b = Cconj (rot_mat r t b a).
Proof.
  assert (H1 : (- t / 2 = - (t / 2))%R) by field.
  destruct r, a, b; simpl; rewrite ?H1, ?cos_neg, ?sin_neg, ?cis_conj, ?Ropp_involutive, ?Cconj_mult,
    ?Cconj_opp, ?Cconj_Ci, ?Cconj_RtoC, ?RtoC_opp; try reflexivity; try ring.
Qed.
Lemma ang_neg rho e : ang rho (neg_param e) = (- ang rho e)%R.
Proof. reflexivity. Qed.

(** Main theorem: entry (r,c) of the operator of dagger(b) is the conjugate of entry (c,r) of b. *)
Theorem C04_dagger_is_adjoint : forall rho b fs, NoDup fs -> (forall q, In q (qubits b) -> In q fs) ->
  dag_ok rho b ->
  forall r c, length r = length fs -> length c = length fs ->
    matof fs (den rho (dagger b)) r c = Cconj (matof fs (den rho b) c r).
Proof.
  intros rho b fs Hn Hs Hok. change (adj_on fs (den rho b) (den rho (dagger b))).
  revert Hs Hok.
  assert (HD : forall b, (forall q, In q (qubits b) -> In q fs) -> loc (inl fs) (den rho (dagger b))).
  { intros x Hx. apply loc_incl. intros q Hq. apply Hx. apply qubits_dagger; exact Hq. }
  assert (Hchain : forall bs,
     Forall (fun b => (forall q, In q (qubits b) -> In q fs) -> dag_ok rho b -> adj_on fs (den rho b) (den rho (dagger b))) bs ->
     (forall q, In q (flat_map qubits bs) -> In q fs) -> fold_right (fun b k => dag_ok rho b /\ k) True bs ->
     adj_on fs (dchain rho bs) (dchain rho (rev (map dagger bs)))).
  { intros bs H. induction H as [|b0 bs Hb _ IH]; intros Hs Hok; simpl.
    - apply adj_id; exact Hn.
    - destruct Hok as [Hok1 Hok2].
      assert (Hs1 : forall q, In q (qubits b0) -> In q fs) by (intros; apply Hs; simpl; apply in_app_iff; auto).
      assert (Hs2 : forall q, In q (flat_map qubits bs) -> In q fs) by (intros; apply Hs; simpl; apply in_app_iff; auto).
      rewrite dchain_app. simpl. apply adj_seq; auto.
      + apply loc_incl; exact Hs1.
      + apply HD; exact Hs1.
      + apply (loc_incl rho (BChain bs)); exact Hs2.
      + apply (loc_incl rho (BChain (rev (map dagger bs)))). intros q Hq. apply Hs2.
        change (In q (qubits (dagger (BChain bs)))) in Hq. rewrite qubits_dagger in Hq. exact Hq. }
  assert (Hadd : forall bs,
     Forall (fun b => (forall q, In q (qubits b) -> In q fs) -> dag_ok rho b -> adj_on fs (den rho b) (den rho (dagger b))) bs ->
     (forall q, In q (flat_map qubits bs) -> In q fs) -> fold_right (fun b k => dag_ok rho b /\ k) True bs ->
     adj_on fs (dadd rho bs) (dadd rho (rev (map dagger bs)))).
  { intros bs H. induction H as [|b0 bs Hb _ IH]; intros Hs Hok; simpl.
    - apply adj_zero.
    - destruct Hok as [Hok1 Hok2].
      rewrite dadd_app. simpl. rewrite addop_zero_r, (addop_comm (dadd rho (rev (map dagger bs)))). apply adj_add.
      + apply Hb; [|exact Hok1]. intros; apply Hs; simpl; apply in_app_iff; auto.
      + apply IH; [|exact Hok2]. intros; apply Hs; simpl; apply in_app_iff; auto. }
  induction b as [p q|k br qs|r q e|q a b c|a b|c a b|cs b IH|cs b IH|b e IH|bs IH|bs IH|bs IH|m qs|g t IH]
    using block_ind'; intros Hs Hok; cbn [qubits dag_ok] in *.
  - assert (Hq : In q fs) by (apply Hs; left; reflexivity).
    destruct p; cbn [dagger den]; apply adj_gate1; auto; intros [] []; simpl;
      rewrite ?Cconj_opp, ?Cconj_Ci, ?Cconj_inv_sqrt2, ?Cconj_RtoC, ?cis_conj, ?Ropp_involutive; try reflexivity; try ring;
      destruct state; simpl; rewrite ?Cconj_RtoC; reflexivity.
  - destruct Hok as [<- Nq]. cbn [dagger den]. apply adj_gate; auto.
    intros r c Hr Hc. unfold ketbra. rewrite Cconj_mult.
    destruct (eqbits r k), (eqbits c k); rewrite ?Cconj_RtoC; ring.
  - cbn [dagger den]. rewrite ang_neg. apply adj_gate1; [exact Hn|apply Hs; left; reflexivity|]. intros; apply rot_adj.
  - cbn [dagger den]. rewrite !ang_neg, <- Hok.
    assert (Hq : In q fs) by (apply Hs; left; reflexivity).
    assert (L : forall r t, loc (inl fs) (gate1 q (rot_mat r t)))
      by (intros; apply loc_gate; simpl; intros x [<-|[]]; exact Hq).
    assert (Ad : forall r t, adj_on fs (gate1 q (rot_mat r t)) (gate1 q (rot_mat r (- t))))
      by (intros; apply adj_gate1; auto; intros; apply rot_adj).
    rewrite <- !seqop_assoc.
    change (adj_on fs (seqop (seqop (gate1 q (rot_mat RZ_ (ang rho a))) (gate1 q (rot_mat RY_ (ang rho b)))) (gate1 q (rot_mat RZ_ (ang rho a))))
      (seqop (gate1 q (rot_mat RZ_ (- ang rho a))) (seqop (gate1 q (rot_mat RY_ (- ang rho b))) (gate1 q (rot_mat RZ_ (- ang rho a)))))).
    apply adj_seq; auto using loc_seq. apply adj_seq; auto.
  - cbn [dagger den]. apply adj_swap; auto; apply Hs; simpl; auto.
  - cbn [dagger den]. destruct Hok as [H1 H2].
    apply (adj_ctrl fs Hn (fun q => q = a \/ q = b)).
    + apply loc_swap; auto.
    + intros q [<-|[]] [->| ->]; congruence.
    + intros q [<-|[]]. apply Hs; left; reflexivity.
    + apply adj_swap; auto; apply Hs; simpl; auto.
  - cbn [dagger den]. destruct Hok as [Hd Hok].
    apply (adj_ctrl fs Hn (fun q => In q (qubits b))).
    + apply den_loc.
    + exact Hd.
    + intros; apply Hs, in_app_iff; auto.
    + apply IH; [|exact Hok]. intros; apply Hs, in_app_iff; auto.
  - cbn [dagger den]. destruct Hok as [Hd Hok].
    apply (adj_ctrl fs Hn (fun q => In q (qubits b))).
    + apply den_loc.
    + exact Hd.
    + intros; apply Hs, in_app_iff; auto.
    + apply IH; [|exact Hok]. intros; apply Hs, in_app_iff; auto.
  - cbn [dagger den ev dagger_expression]. apply adj_scale. auto.
  - apply Hchain; assumption.
  - apply Hchain; assumption.
  - apply Hadd; assumption.
  - destruct Hok as [Nq Hm]. cbn [dagger den]. apply adj_gate; auto.
  - cbn [dagger den]. apply adj_gate; auto.
    + apply NoDup_nodup.
    + intros q Hq. apply Hs. apply in_uqubits; exact Hq.
    + intros r c Hr Hc. rewrite ang_neg.
      rewrite <- bexp_adj by assumption. apply bexp_ext; try assumption.
      intros r' c' Hr' Hc'. unfold badj. rewrite (Hok r' c') by assumption.
      rewrite !Cconj_mult, Cconj_opp, Cconj_Ci, Cconj_RtoC, RtoC_opp. ring.
Qed.

(** dagger twice keeps the operator (no condition on the block). *)
Theorem C04_dagger_involutive : forall rho b, den rho (dagger (dagger b)) = den rho b.
Proof.
  intros rho b.
  assert (Hchain : forall bs, Forall (fun b => den rho (dagger (dagger b)) = den rho b) bs ->
     dchain rho (rev (map dagger (rev (map dagger bs)))) = dchain rho bs).
  { intros bs H. rewrite map_rev, rev_involutive, map_map. induction H as [|b0 bs Hb _ IH]; simpl; congruence. }
  assert (Hadd : forall bs, Forall (fun b => den rho (dagger (dagger b)) = den rho b) bs ->
     dadd rho (rev (map dagger (rev (map dagger bs)))) = dadd rho bs).
  { intros bs H. rewrite map_rev, rev_involutive, map_map. induction H as [|b0 bs Hb _ IH]; simpl; congruence. }
  induction b as [p q|k br qs|r q e|q a b c|a b|c a b|cs b IH|cs b IH|b e IH|bs IH|bs IH|bs IH|m qs|g t IH]
    using block_ind'; cbn [dagger]; try reflexivity.
  - destruct p; reflexivity.
  - cbn [den]. rewrite !ang_neg, Ropp_involutive. reflexivity.
  - cbn [den]. rewrite !ang_neg, !Ropp_involutive. reflexivity.
  - cbn [den]. rewrite IH. reflexivity.
  - cbn [den]. rewrite IH. reflexivity.
  - cbn [den ev dagger_expression]. rewrite IH, Cconj_conj. reflexivity.
  - apply Hchain; exact IH.
  - apply Hchain; exact IH.
  - apply Hadd; exact IH.
  - cbn [den]. rewrite !ang_neg, Ropp_involutive. reflexivity.
Qed.

(** Finding: for U, MatrixBlock and Projector, dagger() is not the adjoint in general. *)
Definition adjoint_fails (rho : env) (b : block) : Prop :=
  exists fs r c, NoDup fs /\ (forall q, In q (qubits b) -> In q fs) /\
    length r = length fs /\ length c = length fs /\
    matof fs (den rho (dagger b)) r c <> Cconj (matof fs (den rho b) c r).

Lemma C_neq (a b : C) : fst a <> fst b \/ snd a <> snd b -> a <> b.
Proof. intros [H|H] E; apply H; rewrite E; reflexivity. Qed.

Theorem C04_dagger_refuted : forall rho,
  (exists q phi theta omega, adjoint_fails rho (BU q phi theta omega)) /\
  (exists kt br q, adjoint_fails rho (BProj kt br [q])) /\
  (exists m q, adjoint_fails rho (BMat m [q])).
Proof.
  intro rho. repeat split.
  - exists O, (ECst PI), (ECst PI), (ECst 0), [O], [false], [true].
    split; [repeat constructor; simpl; tauto|]. split; [simpl; tauto|]. split; [reflexivity|]. split; [reflexivity|].
    cbn [dagger den]. unfold matof, seqop, gate1, gate, of_mat2, ket, neg_param, ang. cbn -[cos sin PI].
    replace (- PI / 2)%R with (- (PI / 2))%R by field. replace (-0 / 2)%R with 0%R by field.
    replace (0 / 2)%R with 0%R by field.
    unfold cis. rewrite ?Ropp_involutive, ?Ropp_0, ?cos_neg, ?sin_neg, ?cos_PI2, ?sin_PI2, ?cos_0, ?sin_0.
    apply C_neq. right. simpl. lra.
  - exists [false], [true], O, [O], [false], [true].
    split; [repeat constructor; simpl; tauto|]. split; [simpl; tauto|]. split; [reflexivity|]. split; [reflexivity|].
    cbn [dagger den]. unfold matof, gate, ketbra, ket. cbn. apply C_neq. left. simpl. lra.
  - exists (fun i j => if (i <? j)%nat then 1 else 0), O, [O], [false], [true].
    split; [repeat constructor; simpl; tauto|]. split; [simpl; tauto|]. split; [reflexivity|]. split; [reflexivity|].
    cbn [dagger den]. unfold matof, gate, nmat, ket. cbn. apply C_neq. left. simpl. lra.
Qed.

(** Non-vacuity: a block with every kind of composite, a controlled rotation and an evolution. *)
Example C04_witness : forall rho, dag_ok rho
  (BChain [BKron [BRot RX_ 0 (EVar "a"); BPrim PS 1];
           BPCtrl [0%nat] (BRot RPhase 2 (EMul (EVar "a") (EVar "b")));
           BScale (BAdd [BPrim PH 0; BCSwap 0 1 2]) (ECst (1, 2)%R);
           BEvo (BPrim PX 1) (EVar "t")]).
Proof.
  intro rho. cbn [dag_ok fold_right].
  repeat match goal with |- _ /\ _ => split | |- True => exact I end; try lia.
  - intros q [<-|[]] [H|[]]. discriminate H.
  - apply adj_gate1.
    + repeat constructor; simpl; tauto.
    + left; reflexivity.
    + intros [] []; simpl; rewrite ?Cconj_RtoC; reflexivity.
Qed.

Print Assumptions C04_dagger_is_adjoint.
Print Assumptions C04_dagger_involutive.
Print Assumptions C04_dagger_refuted.
