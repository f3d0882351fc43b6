(** C05: Python operators on blocks mean the algebraic operations. *)
From Coq Require Import String Reals List Arith Bool Lia Lra FunctionalExtensionality.
From Coquelicot Require Import Coquelicot.
From Coq Require Import List.
From Verif Require Import S_Sets S_Ops L_Ops M_QubitSupport M_Block S_Den L_Den L_Loc M_BlockOps L_Support.
Import ListNotations.
Open Scope R_scope.
Open Scope C_scope.

(** Specification: the k-th power of an operator. *)
Fixpoint oppow (A : Op) (k : nat) : Op := match k with O => idop | S j => seqop A (oppow A j) end.

Lemma den_zero rho q : den rho (BPrim PZero q) = zeroop.
Proof.
  cbn [den]. unfold gate1. rewrite <- (gate_zero [q]). apply gate_ext.
  intros [|a [|a1 a2]] [|b [|b1 b2]]; simpl; intros; try discriminate. destruct a, b; reflexivity.
Qed.
Lemma den_I rho q : den rho (BPrim PI_ q) = idop.
Proof.
  cbn [den]. unfold gate1. rewrite <- (gate_bid [q]). apply gate_ext.
  intros [|a [|a1 a2]] [|b [|b1 b2]]; simpl; intros; try discriminate. destruct a, b; reflexivity.
Qed.
Lemma is_zero_den rho a : is_zero a = true -> den rho a = zeroop.
Proof. destruct a as [[]| | | | | | | | | | | | |]; try discriminate. intros _. apply den_zero. Qed.

(** a * b applies a first, then b. *)
Theorem C05_mul : forall rho a b, den rho (op_mul a b) = seqop (den rho a) (den rho b).
Proof.
  intros rho a b. unfold op_mul. destruct (is_zero a) eqn:E; [|reflexivity].
  rewrite (is_zero_den rho a E), seqop_zero_l by apply den_linear. reflexivity.
Qed.

Theorem C05_scale : forall rho a s, den rho (op_scale a s) = scaleop (ev rho s) (den rho a).
Proof.
  intros rho a s. destruct a as [[]| | | | | | | |b p| | | | |]; try reflexivity.
  - unfold op_scale. rewrite den_zero, scaleop_zero. reflexivity.
  - simpl. rewrite scaleop_scale. f_equal. ring.
Qed.

Theorem C05_truediv : forall rho a s b, op_truediv a s = Some b ->
  s <> 0 /\ scaleop s (den rho b) = den rho a.
Proof.
  intros rho a s b H. unfold op_truediv in H. destruct (Ceq_dec s 0) as [E|E]; [discriminate|].
  injection H as <-. split; [exact E|]. rewrite C05_scale, scaleop_scale. simpl ev.
  rewrite Cinv_r by exact E. apply scaleop_one.
Qed.
Theorem C05_truediv_total : forall a (s : C), s <> 0 -> exists b, op_truediv a s = Some b.
Proof. intros a s H. unfold op_truediv. destruct (Ceq_dec s 0); [contradiction|eauto]. Qed.

Theorem C05_neg : forall rho a, den rho (op_neg a) = scaleop (- (1)) (den rho a).
Proof. intros rho a. apply C05_scale. Qed.

Theorem C05_add : forall rho a b, den rho (op_add a b) = addop (den rho a) (den rho b).
Proof.
  intros rho a b. unfold op_add. destruct (is_zero a) eqn:E.
  - rewrite (is_zero_den rho a E), addop_zero_l. reflexivity.
  - simpl. rewrite addop_zero_r. reflexivity.
Qed.

Theorem C05_sub : forall rho a b,
  den rho (op_sub a b) = addop (den rho a) (scaleop (- (1)) (den rho b)).
Proof.
  intros rho a b. unfold op_sub. destruct (is_zero a) eqn:E.
  - rewrite (is_zero_den rho a E), addop_zero_l. apply C05_neg.
  - destruct b; simpl; rewrite ?addop_zero_r; try reflexivity.
    rewrite scaleop_scale. do 2 f_equal. ring.
Qed.

Theorem C05_imul : forall rho a b, den rho (op_imul a b) = seqop (den rho a) (den rho b).
Proof.
  intros rho a b.
  assert (U : forall x, dchain rho (unroll_chain x) = den rho x) by (intros []; reflexivity).
  assert (G : den rho (BChain (unroll_chain a ++ unroll_chain b)) = seqop (den rho a) (den rho b))
    by (rewrite den_chain, dchain_app, !U; reflexivity).
  destruct a as [[]| | | | | | | | | | | | |]; try exact G.
  - unfold op_imul. rewrite den_I. reflexivity.
  - unfold op_imul. rewrite den_zero, seqop_zero_l by apply den_linear. reflexivity.
Qed.

Lemma dadd_unroll rho x : dadd rho (unroll_add x) = den rho x.
Proof. destruct x; try (simpl; apply addop_zero_r). reflexivity. Qed.

Theorem C05_iadd : forall rho a b, den rho (op_iadd a b) = addop (den rho a) (den rho b).
Proof.
  intros rho a b. unfold op_iadd. destruct (is_zero a) eqn:E.
  - rewrite (is_zero_den rho a E), addop_zero_l. reflexivity.
  - rewrite den_add, dadd_app, !dadd_unroll. reflexivity.
Qed.

Theorem C05_isub : forall rho a b,
  den rho (op_isub a b) = addop (den rho a) (scaleop (- (1)) (den rho b)).
Proof.
  intros rho a b. unfold op_isub. destruct (is_zero a) eqn:E.
  - rewrite (is_zero_den rho a E), addop_zero_l. apply C05_neg.
  - rewrite den_add, dadd_app, dadd_unroll. f_equal.
    assert (N : forall x, dadd rho [op_neg x] = scaleop (- (1)) (den rho x))
      by (intro x; simpl; rewrite addop_zero_r; apply C05_neg).
    destruct b; try apply N.
    rewrite den_add. induction bs as [|b bs IH]; simpl.
    + rewrite scaleop_zero. reflexivity.
    + rewrite scaleop_add. f_equal; [apply C05_neg|exact IH].
Qed.

Lemma dchain_repeat rho b k : dchain rho (repeat b k) = oppow (den rho b) k.
Proof. induction k; simpl; congruence. Qed.
Lemma oppow_scale A s k : linear A -> oppow (scaleop s A) k = scaleop (cpow s k) (oppow A k).
Proof.
  intro L. assert (LP : forall j, linear (oppow A j)).
  { induction j; simpl; [apply linear_id|apply linear_seq; assumption]. }
  induction k as [|k IH]; simpl; [rewrite scaleop_one; reflexivity|].
  rewrite IH, seqop_scale_r. rewrite seqop_scale_l by apply LP. rewrite scaleop_scale. f_equal. ring.
Qed.

(** a ** k is the k-fold product, for every block except the literal Zero() raised to 0. *)
Theorem C05_pow : forall rho a k, (is_zero a = true -> k <> O) ->
  den rho (op_pow a k) = oppow (den rho a) k.
Proof.
  intros rho a k Hk.
  assert (G : den rho (BChain (repeat a k)) = oppow (den rho a) k) by apply dchain_repeat.
  destruct a as [[]| | | | | | | |b s| | | | |]; try exact G.
  - unfold op_pow. rewrite den_zero. destruct k as [|k]; [exfalso; apply Hk; reflexivity|].
    simpl. rewrite seqop_zero_l; [reflexivity|].
    clear. induction k; simpl; [apply linear_id|apply linear_seq; [apply linear_zero|assumption]].
  - clear G. unfold op_pow. cbn [den ev]. fold (dchain rho (repeat b k)). rewrite dchain_repeat.
    symmetry. apply oppow_scale, den_linear.
Qed.

(** Finding: Zero() ** 0 is the zero operator, not the identity. *)
Theorem C05_pow_zero_refuted : forall rho, exists a, den rho (op_pow a 0) <> oppow (den rho a) 0.
Proof.
  intro rho. exists (BPrim PZero 0). unfold op_pow. rewrite den_zero. intro H. simpl in H.
  assert (E : zeroop (fun _ => 1) zeros = idop (fun _ => 1) zeros) by (rewrite H; reflexivity).
  unfold zeroop, idop in E. injection E. lra.
Qed.

(** a @ b succeeds exactly on disjoint qubits, and then its matrix on the qubits of a followed by those of
    b has the products of the entries of the two factors: the tensor product. *)
Theorem C05_matmul : forall set_iter, set_order set_iter -> forall rho a b,
  ((exists k, op_matmul set_iter a b = Some k) <->
   (forall q, In q (qubits a) -> In q (qubits b) -> False)) /\
  (forall k, op_matmul set_iter a b = Some k ->
   forall fa fb, NoDup fa -> NoDup fb ->
     (forall q, In q fa <-> In q (qubits a)) -> (forall q, In q fb <-> In q (qubits b)) ->
   forall ra rb ca cb, length ra = length fa -> length ca = length fa ->
     length rb = length fb -> length cb = length fb ->
     matof (fa ++ fb) (den rho k) (ra ++ rb) (ca ++ cb) =
     matof fa (den rho a) ra ca * matof fb (den rho b) rb cb).
Proof.
  intros si Hs rho a b. unfold op_matmul.
  destruct (mk_kron_spec si Hs [a; b]) as [Hk Hor].
  assert (HP : ForallOrdPairs disjoint_blocks [a; b] <-> (forall q, In q (qubits a) -> In q (qubits b) -> False)).
  { split.
    - intro H. inversion H as [|? ? H1 _]; subst. inversion H1; subst. assumption.
    - intro H. repeat constructor. exact H. }
  assert (HS : (exists k, mk_kron si [a; b] = Some k) <-> (forall q, In q (qubits a) -> In q (qubits b) -> False)).
  { split.
    - intros [k E]. destruct Hor as [E'|E']; [|congruence]. apply HP. apply Hk in E'. tauto.
    - intro H. exists (BKron [a; b]). apply Hk. split; [discriminate|]. apply HP; exact H. }
  split; [exact HS|].
  intros k Ek fa fb Na Nb Ha Hb ra rb ca cb l1 l2 l3 l4.
  assert (Hd : forall q, In q (qubits a) -> In q (qubits b) -> False) by (apply HS; eauto).
  destruct Hor as [E'|E']; [|congruence]. rewrite E' in Ek. injection Ek as <-.
  cbn [den fold_right]. rewrite seqop_id_r.
  apply matof_kron; try assumption.
  - apply NoDup_app_intro; auto. intros q H1 H2. apply (Hd q); [apply Ha|apply Hb]; assumption.
  - eapply loc_mono; [|apply den_loc]. intros q Hq; apply Ha; exact Hq.
  - eapply loc_mono; [|apply den_loc]. intros q Hq; apply Hb; exact Hq.
Qed.

(** In-place @ gives the same operator as @ whenever both succeed. *)
Theorem C05_imatmul : forall set_iter, set_order set_iter -> forall rho a b k,
  op_imatmul set_iter a b = Some k -> den rho k = seqop (den rho a) (den rho b).
Proof.
  intros si Hs rho a b k H. unfold op_imatmul in H.
  destruct (mk_kron_spec si Hs (unroll_kron a ++ unroll_kron b)) as [_ [E|E]]; rewrite E in H; [|discriminate].
  injection H as <-. rewrite den_kron, dchain_app.
  assert (U : forall x, dchain rho (unroll_kron x) = den rho x) by (intros []; reflexivity).
  rewrite !U. reflexivity.
Qed.

Example C05_witness : forall rho,
  den rho (op_sub (op_pow (op_scale (BPrim PX 0) (EVar "a")) 3) (op_mul (BPrim PY 1) (BPrim PZ 0))) =
  addop (oppow (scaleop (rho "a"%string) (den rho (BPrim PX 0))) 3)
        (scaleop (- (1)) (seqop (den rho (BPrim PY 1)) (den rho (BPrim PZ 0)))).
Proof. intro rho. rewrite C05_sub, C05_pow, C05_scale, C05_mul by discriminate. reflexivity. Qed.

Print Assumptions C05_mul.
Print Assumptions C05_scale.
Print Assumptions C05_truediv.
Print Assumptions C05_truediv_total.
Print Assumptions C05_neg.
Print Assumptions C05_add.
Print Assumptions C05_sub.
Print Assumptions C05_imul.
Print Assumptions C05_iadd.
Print Assumptions C05_isub.
Print Assumptions C05_pow.
Print Assumptions C05_pow_zero_refuted.
Print Assumptions C05_matmul.
Print Assumptions C05_imatmul.
