(** Adjoints and isometries for the inner product. *)
From Coq Require Import String Reals List Arith Bool Lia Lra FunctionalExtensionality Permutation.
From Coquelicot Require Import Coquelicot.
From Coq Require Import List.
From Verif Require Import S_Ops L_Ops M_QubitSupport M_Block S_Den L_Den L_Loc L_Adj L_Gates P_Dagger S_PSR S_State.
Import ListNotations.
Open Scope R_scope.
Open Scope C_scope.

Lemma amps_gate n G psi r : length r = n -> amps n (gate (seq 0 n) G psi) r = csum (fun c => G r c * amps n psi c) (bits n).
Proof.
  intros Hr. unfold amps, gate. rewrite seq_length. apply csum_ext. intros c Hc. apply bits_length in Hc.
  rewrite upds_map by (try apply seq_NoDup; rewrite seq_length; exact Hr). rewrite upds_upds by (rewrite seq_length; assumption). reflexivity.
Qed.
Definition within (n : nat) (A : Op) : Prop := loc (inl (seq 0 n)) A.
Lemma within_is_gate n A : within n A -> A = gate (seq 0 n) (matof (seq 0 n) A).
Proof. intros H. eapply loc_is_gate; [apply seq_NoDup| |exact H]. intros q Hq. exact Hq. Qed.
Lemma within_den n rho b : (forall q, In q (qubits b) -> (q < n)%nat) -> within n (den rho b).
Proof. intros H. apply loc_incl. intros q Hq. apply in_seq. specialize (H q Hq). lia. Qed.
Lemma inner_adj n A B phi psi : within n A -> within n B -> adj_on (seq 0 n) A B -> inner n phi (A psi) = inner n (B phi) psi.
Proof.
  intros WA WB H. unfold inner. rewrite (within_is_gate n A WA), (within_is_gate n B WB).
  transitivity (csum (fun r => csum (fun c => Cconj (amps n phi r) * (matof (seq 0 n) A r c * amps n psi c)) (bits n)) (bits n)).
  { apply csum_ext. intros r Hr. apply bits_length in Hr. rewrite amps_gate by exact Hr. rewrite <- csum_scal. reflexivity. }
  rewrite csum_swap. apply csum_ext. intros c Hc. apply bits_length in Hc. rewrite amps_gate by exact Hc. rewrite csum_conj, <- csum_scal_r.
  apply csum_ext. intros r Hr. apply bits_length in Hr. rewrite H by (rewrite seq_length; assumption). rewrite Cconj_mult, Cconj_conj. ring.
Qed.
(** [A] has an inverse that is its adjoint. *)
Definition unitary_on (n : nat) (A : Op) : Prop := within n A /\ exists B, within n B /\ adj_on (seq 0 n) A B /\ seqop A B = idop.
Lemma unitary_inner n A phi psi : unitary_on n A -> inner n (A phi) (A psi) = inner n phi psi.
Proof.
  intros (WA & B & WB & H & E). rewrite (inner_adj n A B (A phi) psi WA WB H). change (B (A phi)) with (seqop A B phi). rewrite E. reflexivity.
Qed.
Lemma within_seq n A B : within n A -> within n B -> within n (seqop A B).
Proof. apply loc_seq. Qed.
Lemma unitary_seq n A B : unitary_on n A -> unitary_on n B -> unitary_on n (seqop A B).
Proof.
  intros (WA & A' & WA' & HA & EA) (WB & B' & WB' & HB & EB). split; [apply within_seq; assumption|]. exists (seqop B' A'). split; [apply within_seq; assumption|].
  split; [apply adj_seq; try assumption; apply seq_NoDup|]. rewrite seqop_assoc, <- (seqop_assoc B), EB, seqop_id_l. exact EA.
Qed.
Lemma within_id n : within n idop.
Proof. apply (loc_incl (fun _ => 0%R) (BChain [])). simpl. tauto. Qed.
Lemma unitary_id n : unitary_on n idop.
Proof. split; [apply within_id|]. exists idop. split; [apply within_id|]. split; [apply adj_id, seq_NoDup|reflexivity]. Qed.
Lemma unitary_seqs n l : Forall (unitary_on n) l -> unitary_on n (seqs l).
Proof. induction 1 as [|A l HA Hl IH]; simpl; [apply unitary_id|apply unitary_seq; assumption]. Qed.
Lemma within_gate1 n q m : (q < n)%nat -> within n (gate1 q m).
Proof. intros H. unfold within, gate1. constructor. unfold inl. intros k [<-|[]]. apply in_seq. lia. Qed.
Lemma unitary_gate1 n q m : (q < n)%nat -> (forall a b, mmul (fun r c => Cconj (m c r)) m a b = (if Bool.eqb a b then RtoC 1 else RtoC 0)) -> unitary_on n (gate1 q m).
Proof.
  intros Hq H. split; [apply within_gate1, Hq|]. exists (gate1 q (fun r c => Cconj (m c r))). split; [apply within_gate1, Hq|].
  split; [apply adj_gate1; [apply seq_NoDup|apply in_seq; lia|reflexivity]|]. rewrite gate1_gate1. apply gate1_id. exact H.
Qed.
(** The one-qubit unitaries of the library. *)
Definition unitary_prim (p : prim) : Prop := match p with PZero | PN _ => False | _ => True end.
Lemma unitary_prim_gate n p q : (q < n)%nat -> unitary_prim p -> unitary_on n (gate1 q (prim_mat p)).
Proof.
  intros Hq Hp. apply unitary_gate1; [exact Hq|]. intros a b. unfold mmul.
  destruct p as [| | | | | | | | | |[|]]; try contradiction; destruct a, b; cbn [prim_mat mat2 Bool.eqb];
    rewrite ?Cconj_opp, ?Cconj_RtoC, ?Cconj_Ci, ?Cconj_inv_sqrt2, ?cis_conj;
    try (apply Ceq; simpl; ring).
  all: try (replace (/ sqrt 2 * / sqrt 2 + - / sqrt 2 * - / sqrt 2) with (/ sqrt 2 * / sqrt 2 + / sqrt 2 * / sqrt 2) by ring; rewrite inv_sqrt2_sq; apply Ceq; simpl; lra).
  all: try (rewrite inv_sqrt2_sq; apply Ceq; simpl; lra).
  all: try (replace (/ sqrt 2 * / sqrt 2 + - / sqrt 2 * / sqrt 2) with (RtoC 0) by ring; reflexivity).
  all: try (replace (/ sqrt 2 * / sqrt 2 + / sqrt 2 * - / sqrt 2) with (RtoC 0) by ring; reflexivity).
  all: rewrite cis_add; match goal with |- context [cis ?t] => replace t with 0%R by lra end; rewrite cis_0; ring.
Qed.
Lemma inner_conj n phi psi : Cconj (inner n phi psi) = inner n psi phi.
Proof. unfold inner. rewrite csum_conj. apply csum_ext. intros r _. rewrite Cconj_mult, Cconj_conj. ring. Qed.
Lemma inner_add_r n phi f g : inner n phi (fun x => f x + g x) = inner n phi f + inner n phi g.
Proof. unfold inner, amps. rewrite <- csum_plus. apply csum_ext. intros r _. ring. Qed.
Lemma inner_scal_r n phi k f : inner n phi (fun x => k * f x) = k * inner n phi f.
Proof. unfold inner, amps. rewrite <- csum_scal. apply csum_ext. intros r _. ring. Qed.
Lemma inner_zero_r n phi : inner n phi (fun _ => RtoC 0) = RtoC 0.
Proof. unfold inner, amps. apply csum_zero'. intros r _. ring. Qed.
Lemma expval_add n psi A B : expval n psi (addop A B) = expval n psi A + expval n psi B.
Proof. apply inner_add_r. Qed.
Lemma expval_scale n psi k A : expval n psi (scaleop k A) = k * expval n psi A.
Proof. apply inner_scal_r. Qed.
Lemma expval_zero n psi : expval n psi zeroop = RtoC 0.
Proof. apply inner_zero_r. Qed.
(** Reading an outcome string. *)
Lemma upds_seq_nth n : forall s b x q, length b = n -> (s <= q < s + n)%nat -> upds x (seq s n) b q = nth (q - s) b false.
Proof.
  induction n as [|n IH]; intros s b x q Hb Hq; [lia|]. destruct b as [|a b]; [discriminate|]. injection Hb as Hb. cbn [seq upds]. unfold upd.
  destruct (Nat.eqb q s) eqn:E.
  - apply Nat.eqb_eq in E. subst. rewrite Nat.sub_diag. reflexivity.
  - apply Nat.eqb_neq in E. rewrite IH by (exact Hb || lia). replace (q - s)%nat with (S (q - S s)) by lia. reflexivity.
Qed.
Lemma amps_bit n b q : length b = n -> (q < n)%nat -> upds zeros (seq 0 n) b q = nth q b false.
Proof. intros Hb Hq. rewrite upds_seq_nth by (exact Hb || lia). f_equal. lia. Qed.
(** Products of Z are diagonal. *)
Definition zsign (x : asg) (qs : list nat) : R := fold_right (fun q s => ((if x q then -1 else 1) * s)%R) 1%R qs.
Lemma gate1_diag q m psi x : m false true = RtoC 0 -> m true false = RtoC 0 -> gate1 q m psi x = m (x q) (x q) * psi x.
Proof.
  intros H1 H2. unfold gate1, gate, csum. cbn [bits length map app upds of_mat2]. destruct (x q) eqn:E; rewrite ?H1, ?H2; cbn [map app].
  - replace (upd x q true) with x by (rewrite <- E, upd_id; reflexivity). ring.
  - replace (upd x q false) with x by (rewrite <- E, upd_id; reflexivity). ring.
Qed.
Lemma zprod_diag qs psi x : seqs (map (fun q => gate1 q (prim_mat PZ)) qs) psi x = RtoC (zsign x qs) * psi x.
Proof.
  revert psi. induction qs as [|q qs IH]; intros psi; cbn [map seqs zsign fold_right]; [unfold idop; ring|]. unfold seqop. rewrite IH. rewrite gate1_diag by reflexivity.
  change (fold_right (fun q s => ((if x q then -1 else 1) * s)%R) 1%R qs) with (zsign x qs). rewrite RtoC_mult. destruct (x q); cbn [prim_mat mat2]; [|ring].
  replace (RtoC (-1)) with (- RtoC 1) by (apply Ceq; simpl; lra). ring.
Qed.
Lemma prob_inner n psi r : RtoC (prob n psi r) = Cconj (amps n psi r) * amps n psi r.
Proof. unfold prob. destruct (amps n psi r) as [a b]. apply Ceq; simpl; ring. Qed.
Lemma prob_nonneg n psi r : (0 <= prob n psi r)%R.
Proof. unfold prob. nra. Qed.
