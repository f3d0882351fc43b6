From Coq Require Import List ZArith Arith Bool Lia.
From Verif Require Import M_QubitSupport S_Sets.
Import ListNotations.

Lemma support_eqb_spec a b : support_eqb a b = true <-> a = b.
Proof.
  destruct a as [|x], b as [|y]; simpl; try (split; congruence).
  destruct (list_eq_dec Nat.eq_dec x y); split; congruence.
Qed.

Lemma unwrap_nums l : unwrap (map INum l) = map INum l.
Proof. destruct l as [|z [|z' r]]; reflexivity. Qed.

Lemma all_nonneg_nums l :
  all_nonneg (map INum l) = QOk (forallb (Z.leb 0) l).
Proof. induction l as [|z r IH]; simpl; [reflexivity|]. destruct (0 <=? z)%Z; auto. Qed.

Lemma nums_nums l : nums (map INum l) = map Z.to_nat l.
Proof. induction l; simpl; congruence. Qed.

Lemma qs_new_nums_ok l :
  Forall (fun z => (0 <= z)%Z) l -> qs_new (map INum l) = QOk (SLocal (map Z.to_nat l)).
Proof.
  intro H. unfold qs_new. rewrite unwrap_nums.
  assert (Hf : forallb (Z.leb 0) l = true).
  { apply forallb_forall. intros z Hz. rewrite Forall_forall in H. apply Z.leb_le; auto. }
  destruct l as [|z [|z' r]].
  - reflexivity.
  - simpl in *. rewrite Bool.andb_true_r in Hf. rewrite Hf. reflexivity.
  - pose proof (all_nonneg_nums (z :: z' :: r)) as Ha. pose proof (nums_nums (z :: z' :: r)) as Hn.
    cbn [map] in *. rewrite Ha, Hf, Hn. reflexivity.
Qed.

Lemma qs_new_nums_bad l :
  ~ Forall (fun z => (0 <= z)%Z) l -> qs_new (map INum l) = QErr EValue.
Proof.
  intro H. unfold qs_new. rewrite unwrap_nums.
  assert (Hf : forallb (Z.leb 0) l = false).
  { destruct (forallb (Z.leb 0) l) eqn:E; [|reflexivity]. exfalso; apply H.
    rewrite forallb_forall in E. apply Forall_forall. intros z Hz. apply Z.leb_le; auto. }
  destruct l as [|z [|z' r]].
  - discriminate.
  - simpl in *. rewrite Bool.andb_true_r in Hf. rewrite Hf. reflexivity.
  - pose proof (all_nonneg_nums (z :: z' :: r)) as Ha.
    cbn [map] in *. rewrite Ha, Hf. reflexivity.
Qed.

Lemma all_nonneg_true l :
  all_nonneg l = QOk true -> exists zs, l = map INum zs /\ Forall (fun z => (0 <= z)%Z) zs.
Proof.
  induction l as [|i r IH]; simpl; intro H.
  - exists []. split; [reflexivity|constructor].
  - destruct i as [|z|t]; try discriminate.
    destruct (0 <=? z)%Z eqn:E; [|discriminate].
    destruct (IH H) as (zs & -> & Hz). exists (z :: zs). split; [reflexivity|].
    constructor; [apply Z.leb_le; exact E|exact Hz].
Qed.

Lemma qs_new_inv args s :
  qs_new args = QOk s ->
  (unwrap args = [IGlobal] /\ s = SGlobal) \/
  (exists zs, unwrap args = map INum zs /\ Forall (fun z => (0 <= z)%Z) zs /\
              s = SLocal (map Z.to_nat zs)).
Proof.
  unfold qs_new. destruct (unwrap args) as [|i [|i' r]] eqn:E; intro H.
  - right. exists []. simpl in H. inversion H. repeat split; constructor.
  - destruct i as [|z|t].
    + left. inversion H. auto.
    + destruct (0 <=? z)%Z eqn:Ez; [|discriminate]. right. exists [z].
      inversion H. repeat split. repeat constructor. apply Z.leb_le; exact Ez.
    + simpl in H. discriminate.
  - right.
    assert (H' : match all_nonneg (i :: i' :: r) with
                 | QOk true => QOk (SLocal (nums (i :: i' :: r)))
                 | QOk false => QErr EValue
                 | QErr e => QErr e
                 end = QOk s).
    { destruct i; exact H. }
    destruct (all_nonneg (i :: i' :: r)) as [[|]|e] eqn:Ea; try discriminate.
    destruct (all_nonneg_true _ Ea) as (zs & Hz & Hf).
    exists zs. rewrite Hz in H'. rewrite nums_nums in H'. inversion H'. auto.
Qed.

Lemma qs_disjoint_spec a b :
  qs_is_disjoint (SLocal a) (SLocal b) = true <-> (forall q, In q a -> In q b -> False).
Proof.
  simpl. rewrite negb_true_iff. split.
  - intros H q Ha Hb.
    assert (existsb (fun q => existsb (Nat.eqb q) b) a = true); [|congruence].
    apply existsb_exists. exists q. split; [exact Ha|].
    apply existsb_exists. exists q. split; [exact Hb|apply Nat.eqb_refl].
  - intro H. destruct (existsb _ a) eqn:E; [|reflexivity]. exfalso.
    apply existsb_exists in E. destruct E as (q & Ha & Hq).
    apply existsb_exists in Hq. destruct Hq as (q' & Hb & He). apply Nat.eqb_eq in He; subst.
    eauto.
Qed.

Section Add.
  Variable set_iter : list nat -> list nat.
  Hypothesis Hset : set_order set_iter.

  Lemma qs_add_local a b :
    exists l, qs_add set_iter (SLocal a) (SLocal b) = SLocal l /\
              (forall q, In q l <-> In q a \/ In q b) /\ (NoDup a -> NoDup l).
  Proof.
    unfold qs_add. destruct (support_eqb (SLocal a) (SLocal b)) eqn:E.
    - apply support_eqb_spec in E. inversion E; subst. exists b. repeat split; tauto.
    - exists (set_iter (a ++ b)). destruct (Hset (a ++ b)) as [Hn Hi].
      repeat split; auto; intro Hq.
      + apply in_app_iff. apply Hi. exact Hq.
      + apply Hi. apply in_app_iff. exact Hq.
  Qed.
End Add.
