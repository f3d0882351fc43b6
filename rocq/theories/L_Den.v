From Coq Require Import String Reals List Arith Bool Lia FunctionalExtensionality Permutation.
From Coquelicot Require Import Coquelicot.
From Coq Require Import List.
From Verif Require Import S_Ops L_Ops M_Block S_Den.
Import ListNotations.
Open Scope R_scope.
Open Scope C_scope.

(** * Induction on blocks, with the hypothesis for every block of a composite *)
Section BlockInd.
  Variable P : block -> Prop.
  Hypothesis HPrim : forall p q, P (BPrim p q).
  Hypothesis HProj : forall k b qs, P (BProj k b qs).
  Hypothesis HRot : forall r q e, P (BRot r q e).
  Hypothesis HU : forall q a b c, P (BU q a b c).
  Hypothesis HSwap : forall a b, P (BSwap a b).
  Hypothesis HCSwap : forall c a b, P (BCSwap c a b).
  Hypothesis HCtrl : forall cs b, P b -> P (BCtrl cs b).
  Hypothesis HPCtrl : forall cs b, P b -> P (BPCtrl cs b).
  Hypothesis HScale : forall b e, P b -> P (BScale b e).
  Hypothesis HChain : forall bs, Forall P bs -> P (BChain bs).
  Hypothesis HKron : forall bs, Forall P bs -> P (BKron bs).
  Hypothesis HAdd : forall bs, Forall P bs -> P (BAdd bs).
  Hypothesis HMat : forall m qs, P (BMat m qs).
  Hypothesis HEvo : forall g t, P g -> P (BEvo g t).
  Fixpoint block_ind' (b : block) : P b :=
    let all := fix all (bs : list block) : Forall P bs :=
      match bs with
      | [] => Forall_nil P
      | b :: r => @Forall_cons _ P b r (block_ind' b) (all r)
      end in
    match b with
    | BPrim p q => HPrim p q
    | BProj k b qs => HProj k b qs
    | BRot r q e => HRot r q e
    | BU q a b c => HU q a b c
    | BSwap a b => HSwap a b
    | BCSwap c a b => HCSwap c a b
    | BCtrl cs b => HCtrl cs b (block_ind' b)
    | BPCtrl cs b => HPCtrl cs b (block_ind' b)
    | BScale b e => HScale b e (block_ind' b)
    | BChain bs => HChain bs (all bs)
    | BKron bs => HKron bs (all bs)
    | BAdd bs => HAdd bs (all bs)
    | BMat m qs => HMat m qs
    | BEvo g t => HEvo g t (block_ind' g)
    end.
End BlockInd.

(** * Operator algebra *)
Lemma seqop_assoc A B D : seqop (seqop A B) D = seqop A (seqop B D).
Proof. reflexivity. Qed.
Lemma seqop_id_l A : seqop idop A = A.
Proof. reflexivity. Qed.
Lemma seqop_id_r A : seqop A idop = A.
Proof. reflexivity. Qed.
Lemma addop_zero_r A : addop A zeroop = A.
Proof. extensionality psi; extensionality x; unfold addop, zeroop; ring. Qed.
Lemma addop_zero_l A : addop zeroop A = A.
Proof. extensionality psi; extensionality x; unfold addop, zeroop; ring. Qed.
Lemma addop_assoc A B D : addop (addop A B) D = addop A (addop B D).
Proof. extensionality psi; extensionality x; unfold addop; ring. Qed.
Lemma addop_comm A B : addop A B = addop B A.
Proof. extensionality psi; extensionality x; unfold addop; ring. Qed.
Lemma scaleop_add k A B : scaleop k (addop A B) = addop (scaleop k A) (scaleop k B).
Proof. extensionality psi; extensionality x; unfold addop, scaleop; ring. Qed.
Lemma scaleop_scale k l A : scaleop k (scaleop l A) = scaleop (k * l) A.
Proof. extensionality psi; extensionality x; unfold scaleop; ring. Qed.
Lemma scaleop_zero k : scaleop k zeroop = zeroop.
Proof. extensionality psi; extensionality x; unfold scaleop, zeroop; ring. Qed.
Lemma scaleop_one A : scaleop 1 A = A.
Proof. extensionality psi; extensionality x; unfold scaleop; ring. Qed.
Lemma scaleop_0 A : scaleop 0 A = zeroop.
Proof. extensionality psi; extensionality x; unfold scaleop, zeroop; ring. Qed.

(** * Linearity *)
Definition linear (A : Op) : Prop :=
  (forall psi phi, A (fun x => psi x + phi x) = (fun x => A psi x + A phi x)) /\
  (forall k psi, A (fun x => k * psi x) = (fun x => k * A psi x)).

Lemma linear_gate qs G : linear (gate qs G).
Proof.
  split; intros; extensionality x; unfold gate.
  - rewrite <- csum_plus. apply csum_ext; intros; ring.
  - rewrite <- csum_scal. apply csum_ext; intros; ring.
Qed.
Lemma linear_id : linear idop. Proof. split; reflexivity. Qed.
Lemma linear_zero : linear zeroop.
Proof. split; intros; extensionality x; unfold zeroop; ring. Qed.
Lemma linear_seq A B : linear A -> linear B -> linear (seqop A B).
Proof.
  intros [a1 a2] [b1 b2]. split; intros; unfold seqop; rewrite ?a1, ?a2, ?b1, ?b2; reflexivity.
Qed.
Lemma linear_add A B : linear A -> linear B -> linear (addop A B).
Proof.
  intros [a1 a2] [b1 b2]. split; intros; extensionality x; unfold addop;
  rewrite ?a1, ?a2, ?b1, ?b2; ring.
Qed.
Lemma linear_scale k A : linear A -> linear (scaleop k A).
Proof.
  intros [a1 a2]. split; intros; extensionality x; unfold scaleop; rewrite ?a1, ?a2; ring.
Qed.
Lemma linear_ctrl cs A : linear A -> linear (ctrlop cs A).
Proof.
  intros [a1 a2]. split; intros; extensionality x; unfold ctrlop; rewrite ?a1, ?a2;
  destruct (forallb x cs); reflexivity.
Qed.
Lemma linear_swap a b : linear (swapop a b).
Proof. split; reflexivity. Qed.

Lemma seqop_add_l A B D : linear D -> seqop (addop A B) D = addop (seqop A D) (seqop B D).
Proof. intros [d1 _]. extensionality psi; extensionality x; unfold seqop, addop. rewrite d1; reflexivity. Qed.
Lemma seqop_add_r A B D : seqop D (addop A B) = addop (seqop D A) (seqop D B).
Proof. reflexivity. Qed.
Lemma seqop_scale_l k A B : linear B -> seqop (scaleop k A) B = scaleop k (seqop A B).
Proof. intros [_ b2]. extensionality psi; extensionality x; unfold seqop, scaleop. rewrite b2; reflexivity. Qed.
Lemma seqop_scale_r k A B : seqop A (scaleop k B) = scaleop k (seqop A B).
Proof. reflexivity. Qed.
Lemma seqop_zero_l A : linear A -> seqop zeroop A = zeroop.
Proof.
  intros [_ a2]. extensionality psi; extensionality x. unfold seqop, zeroop.
  transitivity (A (fun x => 0 * psi x) x).
  - f_equal. extensionality y. ring.
  - rewrite a2. ring.
Qed.

(** * SWAP as a gate *)
Definition swap_mat : bmat := fun r c =>
  match r, c with [a; b], [a'; b'] => if Bool.eqb a b' && Bool.eqb b a' then 1 else 0 | _, _ => 0 end.

Lemma swapop_gate a b : a <> b -> swapop a b = gate [a; b] swap_mat.
Proof.
  intro H. extensionality psi. extensionality x. unfold swapop, gate. simpl.
  assert (E : forall u v, upd (upd x a u) b v = upd (upd x b v) a u)
    by (intros; apply upd_comm; auto).
  rewrite E. destruct (x a), (x b); simpl; ring.
Qed.
Lemma swapop_same a : swapop a a = idop.
Proof.
  extensionality psi. extensionality x. unfold swapop, idop. rewrite upd_id, upd_id. reflexivity.
Qed.

(** * Locality: operators generated by gates on a set of qubits *)
Inductive loc (T : nat -> Prop) : Op -> Prop :=
| loc_gate qs G : (forall q, In q qs -> T q) -> loc T (gate qs G)
| loc_id : loc T idop
| loc_zero : loc T zeroop
| loc_seq A B : loc T A -> loc T B -> loc T (seqop A B)
| loc_add A B : loc T A -> loc T B -> loc T (addop A B)
| loc_scale k A : loc T A -> loc T (scaleop k A)
| loc_ctrl cs A : (forall q, In q cs -> T q) -> loc T A -> loc T (ctrlop cs A).

Lemma loc_swap (T : nat -> Prop) a b : T a -> T b -> loc T (swapop a b).
Proof.
  intros Ha Hb. destruct (Nat.eq_dec a b) as [->|H].
  - rewrite swapop_same. constructor.
  - rewrite swapop_gate by assumption. constructor. simpl; intros q [<-|[<-|[]]]; assumption.
Qed.
Lemma loc_mono (T T' : nat -> Prop) A : (forall q, T q -> T' q) -> loc T A -> loc T' A.
Proof. intro H. induction 1; constructor; auto. Qed.
Lemma loc_linear T A : loc T A -> linear A.
Proof.
  induction 1; auto using linear_gate, linear_id, linear_zero, linear_seq, linear_add,
    linear_scale, linear_ctrl.
Qed.

Lemma loc_mix T B cs (f g : St) : loc T B -> (forall q, In q cs -> T q -> False) ->
  B (fun x => if forallb x cs then f x else g x) =
  (fun x => if forallb x cs then B f x else B g x).
Proof.
  intros HB Hd. revert f g. induction HB as [qs G HT| | |A B HA IHA HB IHB|A B HA IHA HB IHB|k A HA IHA|ds A HT HA IHA];
    intros f g; extensionality x.
  - unfold gate.
    assert (E : forall y, forallb (upds x qs y) cs = forallb x cs).
    { intro y. clear - Hd HT. induction cs as [|c cs IH]; simpl; [reflexivity|].
      rewrite upds_notin by (intro Hq; apply (Hd c); [left; reflexivity|apply HT; exact Hq]).
      rewrite IH; [reflexivity|]. intros q Hq; apply Hd; right; exact Hq. }
    destruct (forallb x cs) eqn:Ex; apply csum_ext; intros y Hy; rewrite E; reflexivity.
  - reflexivity.
  - unfold zeroop. destruct (forallb x cs); reflexivity.
  - unfold seqop. rewrite IHA, IHB. reflexivity.
  - unfold addop. rewrite IHA, IHB. destruct (forallb x cs); reflexivity.
  - unfold scaleop. rewrite IHA. destruct (forallb x cs); reflexivity.
  - unfold ctrlop. rewrite IHA. destruct (forallb x ds), (forallb x cs); reflexivity.
Qed.

Lemma loc_comm T T' A B : loc T A -> loc T' B -> (forall q, T q -> T' q -> False) ->
  seqop A B = seqop B A.
Proof.
  intros HA HB Hd.
  assert (Hctrl : forall S1 S2 cs U V, loc S2 V -> (forall q, In q cs -> S1 q) ->
      (forall q, S1 q -> S2 q -> False) -> seqop U V = seqop V U ->
      seqop (ctrlop cs U) V = seqop V (ctrlop cs U)).
  { intros S1 S2 cs U V HV Hcs Hdd Hc. extensionality psi. unfold seqop.
    transitivity (fun x => if forallb x cs then V (U psi) x else V psi x).
    - apply (loc_mix S2 V cs (U psi) psi); [exact HV|]. intros q Hq; apply Hdd; auto.
    - extensionality x. unfold ctrlop.
      change (V (U psi)) with (seqop U V psi). rewrite Hc. reflexivity. }
  assert (Hg : forall qs G, (forall q, In q qs -> T q) ->
            seqop (gate qs G) B = seqop B (gate qs G)).
  { intros qs G Hq. induction HB as [rs G' HT| | |B1 B2 H1 IH1 H2 IH2|B1 B2 H1 IH1 H2 IH2|k B1 H1 IH1|cs B1 Hcs H1 IH1].
    - apply gate_disjoint_comm. intros q H1 H2; eapply Hd; eauto.
    - reflexivity.
    - rewrite (seqop_zero_l (gate qs G)) by apply linear_gate. reflexivity.
    - rewrite <- seqop_assoc, IH1, seqop_assoc, IH2. reflexivity.
    - rewrite seqop_add_r, seqop_add_l by apply linear_gate. congruence.
    - rewrite seqop_scale_r, seqop_scale_l by apply linear_gate. congruence.
    - symmetry. apply (Hctrl T' T); auto.
      + constructor; auto.
      + intros q a b; eapply Hd; eauto. }
  pose proof (loc_linear _ _ HB) as HlB.
  induction HA as [qs G HT| | |A1 A2 H1 IH1 H2 IH2|A1 A2 H1 IH1 H2 IH2|k A1 H1 IH1|cs A1 Hcs H1 IH1].
  - apply Hg; assumption.
  - reflexivity.
  - rewrite (seqop_zero_l B) by exact HlB. reflexivity.
  - rewrite seqop_assoc, IH2, <- seqop_assoc, IH1. reflexivity.
  - rewrite seqop_add_r, seqop_add_l by exact HlB. congruence.
  - rewrite seqop_scale_r, seqop_scale_l by exact HlB. congruence.
  - apply (Hctrl T T'); auto.
Qed.

(** * Denotations *)
Section Den.
  Variable rho : env.

  Definition dchain (bs : list block) : Op := fold_right (fun b k => seqop (den rho b) k) idop bs.
  Definition dadd (bs : list block) : Op := fold_right (fun b k => addop (den rho b) k) zeroop bs.

  Lemma den_chain bs : den rho (BChain bs) = dchain bs. Proof. reflexivity. Qed.
  Lemma den_kron bs : den rho (BKron bs) = dchain bs. Proof. reflexivity. Qed.
  Lemma den_add bs : den rho (BAdd bs) = dadd bs. Proof. reflexivity. Qed.

  Lemma dchain_app l1 l2 : dchain (l1 ++ l2) = seqop (dchain l1) (dchain l2).
  Proof. induction l1 as [|b l IH]; simpl; [reflexivity|]. rewrite IH. reflexivity. Qed.
  Lemma dadd_app l1 l2 : dadd (l1 ++ l2) = addop (dadd l1) (dadd l2).
  Proof.
    induction l1 as [|b l IH]; simpl; [rewrite addop_zero_l; reflexivity|].
    rewrite IH, addop_assoc. reflexivity.
  Qed.

  Lemma in_uqubits b q : In q (uqubits b) <-> In q (qubits b).
  Proof. apply nodup_In. Qed.

  Lemma den_loc b : loc (fun q => In q (qubits b)) (den rho b).
  Proof.
    induction b as [p q|k br qs|r q e|q a b c|a b|c a b|cs b IH|cs b IH|b e IH|bs IH|bs IH|bs IH|m qs|g t IH]
      using block_ind'; cbn [den qubits].
    - constructor; auto.
    - constructor; auto.
    - constructor; auto.
    - apply loc_seq; [|apply loc_seq]; apply loc_gate; auto.
    - apply loc_swap; simpl; auto.
    - constructor; [simpl; tauto|]. apply loc_swap; simpl; auto.
    - constructor; [intros; apply in_app_iff; auto|].
      eapply loc_mono; [|exact IH]. intros; apply in_app_iff; auto.
    - constructor; [intros; apply in_app_iff; auto|].
      eapply loc_mono; [|exact IH]. intros; apply in_app_iff; auto.
    - constructor; exact IH.
    - induction IH as [|b bs Hb Hbs IHbs]; simpl; constructor.
      + eapply loc_mono; [|exact Hb]. intros; apply in_app_iff; auto.
      + eapply loc_mono; [|exact IHbs]. intros; apply in_app_iff; auto.
    - induction IH as [|b bs Hb Hbs IHbs]; simpl; constructor.
      + eapply loc_mono; [|exact Hb]. intros; apply in_app_iff; auto.
      + eapply loc_mono; [|exact IHbs]. intros; apply in_app_iff; auto.
    - induction IH as [|b bs Hb Hbs IHbs]; simpl; constructor.
      + eapply loc_mono; [|exact Hb]. intros; apply in_app_iff; auto.
      + eapply loc_mono; [|exact IHbs]. intros; apply in_app_iff; auto.
    - constructor; auto.
    - constructor. intros q. apply in_uqubits.
  Qed.

  Lemma den_linear b : linear (den rho b).
  Proof. eapply loc_linear, den_loc. Qed.
  Lemma dchain_linear bs : linear (dchain bs).
  Proof. apply (den_linear (BChain bs)). Qed.
  Lemma dadd_linear bs : linear (dadd bs).
  Proof. apply (den_linear (BAdd bs)). Qed.

  Lemma den_comm a b : (forall q, In q (qubits a) -> In q (qubits b) -> False) ->
    seqop (den rho a) (den rho b) = seqop (den rho b) (den rho a).
  Proof. intro H. eapply loc_comm; [apply den_loc|apply den_loc|]. exact H. Qed.
End Den.
