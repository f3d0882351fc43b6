(** C49: circuits of gates are unitary: they preserve inner products and norms, and dagger() undoes them. *)
From Coq Require Import String Reals List Arith Bool Lia Lra FunctionalExtensionality Permutation.
From Coquelicot Require Import Coquelicot.
From Coq Require Import List.
From Verif Require Import S_Ops L_Ops M_QubitSupport M_Block S_Den L_Den L_Loc L_Adj L_Gates M_BlockOps L_Exp L_Tensor L_ExpMul L_ExpOp P_Operators P_Dagger M_PSR S_PSR P_PSR S_State L_Inner.
Import ListNotations.
Open Scope R_scope.
Open Scope C_scope.

(** * Specification *)
(** Blocks made of gates only: standard gates (not the zero and number operators), rotations, swaps, controlled gates (controls disjoint from
    the targets), evolutions under a self-adjoint generator, unitary matrix blocks, phases, and sequences and Kronecker products of them. *)
Fixpoint gate_block (rho : env) (b : block) : Prop :=
  match b with
  | BPrim p _ => unitary_prim p
  | BRot _ _ _ | BU _ _ _ _ | BSwap _ _ => True
  | BCSwap c a b => c <> a /\ c <> b
  | BCtrl cs b | BPCtrl cs b => (forall q, In q cs -> In q (qubits b) -> False) /\ gate_block rho b
  | BScale b e => Cmod (ev rho e) = 1%R /\ gate_block rho b
  | BChain bs | BKron bs => fold_right (fun b k => gate_block rho b /\ k) True bs
  | BMat m qs => NoDup qs /\ beq (length qs) (bmul (length qs) (badj (nmat m)) (nmat m)) bid /\ beq (length qs) (bmul (length qs) (nmat m) (badj (nmat m))) bid
  | BEvo g _ => adj_on (uqubits g) (den rho g) (den rho g)
  | BProj _ _ _ | BAdd _ => False
  end.
(** Self-adjoint by construction. *)
Fixpoint herm_block (rho : env) (b : block) : Prop :=
  match b with
  | BPrim p _ => match p with PX | PY | PZ | PI_ | PH | PZero | PN _ => True | _ => False end
  | BProj k br qs => k = br /\ NoDup qs
  | BSwap _ _ => True
  | BCSwap c a b => c <> a /\ c <> b
  | BCtrl cs b | BPCtrl cs b => (forall q, In q cs -> In q (qubits b) -> False) /\ herm_block rho b
  | BScale b e => snd (ev rho e) = 0%R /\ herm_block rho b
  | BAdd bs => fold_right (fun b k => herm_block rho b /\ k) True bs
  | BKron bs => ForallOrdPairs (fun a b => forall q, In q (qubits a) -> In q (qubits b) -> False) bs /\ fold_right (fun b k => herm_block rho b /\ k) True bs
  | _ => False
  end.

(** * Proofs *)
Definition uni (fs : list nat) (T : nat -> Prop) (A : Op) : Prop :=
  exists B, loc T A /\ loc T B /\ adj_on fs A B /\ seqop A B = idop /\ seqop B A = idop.
Section Fs.
  Variable fs : list nat.
  Hypothesis Hn : NoDup fs.
  Lemma uni_mono (T T' : nat -> Prop) A : (forall q, T q -> T' q) -> uni fs T A -> uni fs T' A.
  Proof. intros H (B & LA & LB & R). exists B. split; [eapply loc_mono; eassumption|]. split; [eapply loc_mono; eassumption|exact R]. Qed.
  Lemma uni_id (T : nat -> Prop) : uni fs T idop.
  Proof. exists idop. repeat split; try constructor. apply adj_id, Hn. Qed.
  Lemma uni_seq (T : nat -> Prop) A B : (forall q, T q -> In q fs) -> uni fs T A -> uni fs T B -> uni fs T (seqop A B).
  Proof.
    intros HT (A' & LA & LA' & HA & E1 & E2) (B' & LB & LB' & HB & F1 & F2). exists (seqop B' A'). split; [apply loc_seq; assumption|]. split; [apply loc_seq; assumption|]. split; [|split].
    - apply adj_seq; try assumption; eapply loc_mono; try exact HT; assumption.
    - rewrite seqop_assoc, <- (seqop_assoc B), F1, seqop_id_l. exact E1.
    - rewrite seqop_assoc, <- (seqop_assoc A'), E2, seqop_id_l. exact F2.
  Qed.
  Lemma uni_gate qs G G' : NoDup qs -> (forall q, In q qs -> In q fs) -> (forall r c, length r = length qs -> length c = length qs -> G' r c = Cconj (G c r)) ->
    beq (length qs) (bmul (length qs) G' G) bid -> beq (length qs) (bmul (length qs) G G') bid -> uni fs (fun q => In q qs) (gate qs G).
  Proof.
    intros Nq Hq Ha E F. exists (gate qs G'). split; [constructor; auto|]. split; [constructor; auto|]. split; [|split].
    - apply adj_gate; assumption.
    - rewrite gate_gate by exact Nq. rewrite <- (gate_bid qs). apply gate_ext. exact E.
    - rewrite gate_gate by exact Nq. rewrite <- (gate_bid qs). apply gate_ext. exact F.
  Qed.
  Lemma uni_gate1 q m m' : In q fs -> (forall a b, m' a b = Cconj (m b a)) -> (forall a b, mmul m' m a b = (if Bool.eqb a b then RtoC 1 else RtoC 0)) ->
    (forall a b, mmul m m' a b = (if Bool.eqb a b then RtoC 1 else RtoC 0)) -> uni fs (fun k => k = q) (gate1 q m).
  Proof.
    intros Hq Ha E F. exists (gate1 q m'). split; [constructor; intros k [<-|[]]; reflexivity|]. split; [constructor; intros k [<-|[]]; reflexivity|]. split; [apply adj_gate1; assumption|].
    split; rewrite gate1_gate1; apply gate1_id; assumption.
  Qed.
  Lemma uni_rot q r t : In q fs -> uni fs (fun k => k = q) (gate1 q (rot_mat r t)).
  Proof.
    intros Hq. apply (uni_gate1 q (rot_mat r t) (rot_mat r (- t))); [exact Hq|intros a b; apply rot_adj| |]; intros a b; rewrite rot_mul, <- (rot_0 r a b); f_equal; lra.
  Qed.
  Lemma uni_prim q p : In q fs -> unitary_prim p -> uni fs (fun k => k = q) (gate1 q (prim_mat p)).
  Proof.
    intros Hq Hp.
    assert (D : forall a b : bool, prim_mat (match p with PS => PSdg | PSdg => PS | PT => PTdg | PTdg => PT | _ => p end) a b = Cconj (prim_mat p b a)).
    { destruct p as [| | | | | | | | | |[|]]; try contradiction; intros [|] [|]; cbn [prim_mat mat2]; rewrite ?Cconj_opp, ?Cconj_RtoC, ?Cconj_Ci, ?Cconj_inv_sqrt2, ?cis_conj, ?Ropp_involutive; try reflexivity; ring. }
    assert (U : forall p', unitary_prim p' -> forall a b, mmul (fun r c => Cconj (prim_mat p' c r)) (prim_mat p') a b = (if Bool.eqb a b then RtoC 1 else RtoC 0)).
    { clear. intros p Hp a b. unfold mmul. destruct p as [| | | | | | | | | |[|]]; try contradiction; destruct a, b; cbn [prim_mat mat2 Bool.eqb];
        rewrite ?Cconj_opp, ?Cconj_RtoC, ?Cconj_Ci, ?Cconj_inv_sqrt2, ?cis_conj; try (apply Ceq; simpl; ring).
      all: try (replace (/ sqrt 2 * / sqrt 2 + - / sqrt 2 * - / sqrt 2) with (/ sqrt 2 * / sqrt 2 + / sqrt 2 * / sqrt 2) by ring; rewrite inv_sqrt2_sq; apply Ceq; simpl; lra).
      all: try (rewrite inv_sqrt2_sq; apply Ceq; simpl; lra).
      all: try (replace (/ sqrt 2 * / sqrt 2 + - / sqrt 2 * / sqrt 2) with (RtoC 0) by ring; reflexivity).
      all: try (replace (/ sqrt 2 * / sqrt 2 + / sqrt 2 * - / sqrt 2) with (RtoC 0) by ring; reflexivity).
      all: rewrite cis_add; match goal with |- context [cis ?t] => replace t with 0%R by lra end; rewrite cis_0; ring. }
    apply (uni_gate1 q (prim_mat p) (prim_mat (match p with PS => PSdg | PSdg => PS | PT => PTdg | PTdg => PT | _ => p end))); [exact Hq|exact D| |].
    - intros a b. rewrite <- (U p Hp a b). unfold mmul. rewrite !D. reflexivity.
    - intros a b. set (p' := match p with PS => PSdg | PSdg => PS | PT => PTdg | PTdg => PT | _ => p end) in *.
      assert (Hp' : unitary_prim p') by (unfold p'; destruct p; try exact I; contradiction). rewrite <- (U p' Hp' a b). unfold mmul. rewrite !D, !Cconj_conj. reflexivity.
  Qed.
  Lemma uni_swap a b : In a fs -> In b fs -> uni fs (fun q => q = a \/ q = b) (swapop a b).
  Proof.
    intros Ha Hb. exists (swapop a b). assert (L : loc (fun q => q = a \/ q = b) (swapop a b)) by (apply loc_swap; auto).
    assert (E : seqop (swapop a b) (swapop a b) = idop).
    { extensionality psi. extensionality x. unfold seqop, swapop, idop. f_equal. extensionality k. unfold upd. destruct (Nat.eqb_spec k b), (Nat.eqb_spec k a), (Nat.eqb_spec a b), (Nat.eqb_spec b a); subst; try rewrite Nat.eqb_refl; try congruence;
       repeat match goal with |- context [Nat.eqb ?u ?v] => destruct (Nat.eqb_spec u v); try congruence end. }
    repeat split; try assumption. apply adj_swap; assumption.
  Qed.
  Lemma uni_ctrl (T : nat -> Prop) cs A : (forall q, In q cs -> T q -> False) -> (forall q, In q cs -> In q fs) -> uni fs T A -> uni fs (fun q => In q cs \/ T q) (ctrlop cs A).
  Proof.
    intros Hd Hc (B & LA & LB & HA & E & F). exists (ctrlop cs B).
    split; [apply loc_ctrl; [auto|eapply loc_mono; [|exact LA]; auto]|]. split; [apply loc_ctrl; [auto|eapply loc_mono; [|exact LB]; auto]|].
    split; [apply (adj_ctrl fs Hn T); assumption|]. split.
    - rewrite (ctrl_seq T) by assumption. rewrite E. apply ctrl_id.
    - rewrite (ctrl_seq T) by assumption. rewrite F. apply ctrl_id.
  Qed.
  Lemma uni_scale (T : nat -> Prop) k A : (forall q, T q -> In q fs) -> Cmod k = 1%R -> uni fs T A -> uni fs T (scaleop k A).
  Proof.
    intros HT Hk (B & LA & LB & HA & E & F). exists (scaleop (Cconj k) B).
    assert (K : k * Cconj k = RtoC 1) by (unfold Cmod in Hk; apply (f_equal (fun x => (x ^ 2)%R)) in Hk; rewrite pow2_sqrt in Hk by (pose proof (pow2_ge_0 (fst k)); pose proof (pow2_ge_0 (snd k)); lra); apply Ceq; unfold Cmult, Cconj; simpl in *; lra).
    split; [constructor; exact LA|]. split; [constructor; exact LB|]. split; [apply adj_scale; exact HA|].
    pose proof (loc_linear _ _ LA) as NA. pose proof (loc_linear _ _ LB) as NB. split.
    - rewrite seqop_scale_r, seqop_scale_l by exact NB. rewrite scaleop_scale, E, (Cmult_comm (Cconj k)), K. apply scaleop_one.
    - rewrite seqop_scale_r, seqop_scale_l by exact NA. rewrite scaleop_scale, F, K. apply scaleop_one.
  Qed.
End Fs.
Lemma den_evo rho g t : den rho (BEvo g t) = eop (uqubits g) (scaleop (- Ci * RtoC (ang rho t)) (den rho g)).
Proof. reflexivity. Qed.
Lemma den_loc_u rho g : loc (inl (uqubits g)) (den rho g).
Proof. eapply loc_mono; [|apply den_loc]. intros q I. apply in_uqubits. exact I. Qed.
Theorem gate_block_uni : forall rho b fs, NoDup fs -> (forall q, In q (qubits b) -> In q fs) -> gate_block rho b -> uni fs (fun q => In q (qubits b)) (den rho b).
Proof.
  intros rho b fs Hn. 
  assert (Hchain : forall bs, Forall (fun b => (forall q, In q (qubits b) -> In q fs) -> gate_block rho b -> uni fs (fun q => In q (qubits b)) (den rho b)) bs ->
     (forall q, In q (flat_map qubits bs) -> In q fs) -> fold_right (fun b k => gate_block rho b /\ k) True bs -> uni fs (fun q => In q (flat_map qubits bs)) (dchain rho bs)).
  { intros bs H. induction H as [|b0 bs Hb _ IH]; intros Hs Hok; simpl; [apply uni_id, Hn|]. destruct Hok as [Hok1 Hok2].
    apply uni_seq; [exact Hn|exact Hs| |].
    - eapply uni_mono; [|apply Hb; [|exact Hok1]]; [intros q I; apply in_app_iff; left; exact I|]. intros q I. apply Hs. simpl. apply in_app_iff. left. exact I.
    - eapply uni_mono; [|apply IH; [|exact Hok2]]; [intros q I; apply in_app_iff; right; exact I|]. intros q I. apply Hs. simpl. apply in_app_iff. right. exact I. }
  induction b as [p q|k br qs|r q e|q a b c|a b|c a b|cs b IH|cs b IH|b e IH|bs IH|bs IH|bs IH|m qs|g t IH]
    using block_ind'; intros Hs Hok; cbn [qubits gate_block] in *; try contradiction.
  - eapply uni_mono; [|apply uni_prim; [exact Hn|apply Hs; left; reflexivity|exact Hok]]. intros k ->. left. reflexivity.
  - eapply uni_mono; [|apply uni_rot; [exact Hn|apply Hs; left; reflexivity]]. intros k ->. left. reflexivity.
  - cbn [den]. assert (Hq : In q fs) by (apply Hs; left; reflexivity). apply (uni_mono fs (fun k => k = q)); [intros k ->; left; reflexivity|].
    apply uni_seq; [exact Hn|intros k ->; exact Hq|apply uni_rot; assumption|]. apply uni_seq; [exact Hn|intros k ->; exact Hq|apply uni_rot; assumption|apply uni_rot; assumption].
  - eapply uni_mono; [|apply uni_swap; [exact Hn| |]]; [intros q [-> | ->]; simpl; auto|apply Hs; simpl; auto|apply Hs; simpl; auto].
  - cbn [den]. destruct Hok as [H1 H2]. eapply uni_mono; [|apply (uni_ctrl fs Hn (fun q => q = a \/ q = b) [c]); [| |apply uni_swap; [exact Hn| |]]].
    + intros q [[<-|[]]|[-> | ->]]; simpl; auto.
    + intros q [<-|[]] [-> | ->]; congruence.
    + intros q [<-|[]]. apply Hs. left. reflexivity.
    + apply Hs. simpl. auto.
    + apply Hs. simpl. auto.
  - destruct Hok as [Hd Hok]. cbn [den]. eapply uni_mono; [|apply (uni_ctrl fs Hn (fun q => In q (qubits b)) cs); [exact Hd| |apply IH; [|exact Hok]]].
    + intros q I. apply in_app_iff. exact I.
    + intros q I. apply Hs, in_app_iff. left. exact I.
    + intros q I. apply Hs, in_app_iff. right. exact I.
  - destruct Hok as [Hd Hok]. cbn [den]. eapply uni_mono; [|apply (uni_ctrl fs Hn (fun q => In q (qubits b)) cs); [exact Hd| |apply IH; [|exact Hok]]].
    + intros q I. apply in_app_iff. exact I.
    + intros q I. apply Hs, in_app_iff. left. exact I.
    + intros q I. apply Hs, in_app_iff. right. exact I.
  - destruct Hok as [Hk Hok]. cbn [den]. apply uni_scale; [exact Hs|exact Hk|apply IH; assumption].
  - apply Hchain; assumption.
  - apply Hchain; assumption.
  - destruct Hok as (Nq & E & F). cbn [den]. apply (uni_gate fs Hn qs (nmat m) (badj (nmat m))); try assumption. reflexivity.
  - assert (HA : adj_on fs (den rho (BEvo g t)) (den rho (dagger (BEvo g t)))) by (exact (C04_dagger_is_adjoint rho (BEvo g t) fs Hn Hs Hok)).
    cbn [dagger] in HA. rewrite !den_evo in HA. rewrite den_evo. set (A := scaleop (- Ci * RtoC (ang rho t)) (den rho g)) in *.
    assert (EB : scaleop (- Ci * RtoC (ang rho (neg_param t))) (den rho g) = scaleop (- (1)) A) by (unfold A; rewrite scaleop_scale; f_equal; rewrite ang_neg, RtoC_opp; ring).
    rewrite EB in HA. assert (LA : loc (inl (uqubits g)) A) by (constructor; apply den_loc_u).
    assert (Nu : NoDup (uqubits g)) by apply NoDup_nodup.
    assert (EE : scaleop (- (1)) (scaleop (- (1)) A) = A) by (rewrite scaleop_scale; rewrite <- (scaleop_one A) at 2; f_equal; ring).
    exists (eop (uqubits g) (scaleop (- (1)) A)). split; [|split; [|split; [exact HA|split]]].
    + eapply loc_mono; [|apply loc_eop]. intros q I. apply in_uqubits. exact I.
    + eapply loc_mono; [|apply loc_eop]. intros q I. apply in_uqubits. exact I.
    + apply eop_inv; assumption.
    + rewrite <- EE at 2. apply eop_inv; [exact Nu|constructor; exact LA].
Qed.
Lemma adj_unique fs A B B' : NoDup fs -> loc (inl fs) B -> loc (inl fs) B' -> adj_on fs A B -> adj_on fs A B' -> B = B'.
Proof. intros N LB LB' H H'. apply (loc_op_eq fs); try assumption. intros r c Hr Hc. rewrite H, H' by assumption. reflexivity. Qed.
Lemma below n b : (forall q, In q (qubits b) -> (q < n)%nat) -> forall q, In q (qubits b) -> In q (seq 0 n).
Proof. intros H q I. apply in_seq. specialize (H q I). lia. Qed.
Lemma gate_block_unitary rho n b : (forall q, In q (qubits b) -> (q < n)%nat) -> gate_block rho b -> unitary_on n (den rho b).
Proof.
  intros Hq Hg. destruct (gate_block_uni rho b (seq 0 n) (seq_NoDup _ _) (below n b Hq) Hg) as (B & LA & LB & HA & E & _).
  split; [apply within_den; exact Hq|]. exists B. split; [eapply loc_mono; [|exact LB]; exact (below n b Hq)|]. split; [exact HA|exact E].
Qed.

(** Inner products, hence norms and total probability, are preserved for every state and every parameter value. *)
Theorem C49_unitary : forall rho n b, (forall q, In q (qubits b) -> (q < n)%nat) -> gate_block rho b ->
  (forall phi psi, inner n (den rho b phi) (den rho b psi) = inner n phi psi) /\
  (forall psi, normalised n psi -> normalised n (den rho b psi)) /\
  (forall psi, normalised n psi -> rsum (map (prob n (den rho b psi)) (bits n)) = 1%R).
Proof.
  intros rho n b Hq Hg. pose proof (gate_block_unitary rho n b Hq Hg) as U.
  assert (I : forall phi psi, inner n (den rho b phi) (den rho b psi) = inner n phi psi) by (intros; apply unitary_inner, U).
  split; [exact I|]. assert (K : forall psi, normalised n psi -> normalised n (den rho b psi)) by (intros psi H; unfold normalised; rewrite I; exact H). split; [exact K|].
  intros psi H. specialize (K psi H). unfold normalised, inner in K. apply RtoC_inj. rewrite <- K. generalize (bits n). induction l as [|r l IH]; [reflexivity|].
  cbn [map rsum csum]. rewrite RtoC_plus, IH, prob_inner. reflexivity.
Qed.
(** dagger() is the inverse, in both orders. *)
Theorem C49_dagger_inverse : forall rho b, gate_block rho b -> dag_ok rho b ->
  seqop (den rho b) (den rho (dagger b)) = idop /\ seqop (den rho (dagger b)) (den rho b) = idop.
Proof.
  intros rho b Hg Hd. set (fs := uqubits b). assert (N : NoDup fs) by apply NoDup_nodup. assert (S : forall q, In q (qubits b) -> In q fs) by (intros q I; apply in_uqubits; exact I).
  destruct (gate_block_uni rho b fs N S Hg) as (B & LA & LB & HA & E & F).
  assert (Q : den rho (dagger b) = B).
  { apply (adj_unique fs (den rho b)); [exact N| | | |exact HA].
    - apply loc_incl. intros q I. apply S. apply qubits_dagger. exact I.
    - eapply loc_mono; [|exact LB]. exact S.
    - exact (C04_dagger_is_adjoint rho b fs N S Hd). }
  rewrite Q. auto.
Qed.
Lemma kron_adj rho fs bs : NoDup fs -> (forall q, In q (flat_map qubits bs) -> In q fs) ->
  ForallOrdPairs (fun a b => forall q, In q (qubits a) -> In q (qubits b) -> False) bs -> Forall (fun b => adj_on fs (den rho b) (den rho b)) bs -> adj_on fs (dchain rho bs) (dchain rho bs).
Proof.
  intros N Hs D H. induction H as [|b bs Hb H IH]; [apply adj_id, N|]. inversion D as [|? ? D1 D2]; subst. cbn [dchain fold_right].
  assert (S1 : forall q, In q (qubits b) -> In q fs) by (intros q I; apply Hs; simpl; apply in_app_iff; auto).
  assert (S2 : forall q, In q (flat_map qubits bs) -> In q fs) by (intros q I; apply Hs; simpl; apply in_app_iff; auto).
  assert (L1 : loc (inl fs) (den rho b)) by (apply loc_incl; exact S1). assert (L2 : loc (inl fs) (dchain rho bs)) by (apply (loc_incl rho (BChain bs)); exact S2).
  change (adj_on fs (seqop (den rho b) (dchain rho bs)) (seqop (den rho b) (dchain rho bs))).
  assert (E : seqop (den rho b) (dchain rho bs) = seqop (dchain rho bs) (den rho b)).
  { apply (loc_comm (fun q => In q (qubits b)) (fun q => In q (flat_map qubits bs))); [apply den_loc|apply (den_loc rho (BChain bs))|].
    intros q I J. apply in_flat_map in J as (x & Ix & J). rewrite Forall_forall in D1. exact (D1 x Ix q I J). }
  rewrite E at 2. apply adj_seq; try assumption. apply IH; assumption.
Qed.
(** The self-adjoint blocks are self-adjoint: they are valid generators, and their expectation values are real. *)
Theorem C49_hermitian : forall rho b fs, NoDup fs -> (forall q, In q (qubits b) -> In q fs) -> herm_block rho b ->
  forall r c, length r = length fs -> length c = length fs -> matof fs (den rho b) r c = Cconj (matof fs (den rho b) c r).
Proof.
  intros rho b fs Hn Hs Hok. change (adj_on fs (den rho b) (den rho b)). revert Hs Hok.
  induction b as [p q|k br qs|r q e|q a b c|a b|c a b|cs b IH|cs b IH|b e IH|bs IH|bs IH|bs IH|m qs|g t IH]
    using block_ind'; intros Hs Hok; cbn [qubits herm_block] in *; try contradiction.
  - assert (Hq : In q fs) by (apply Hs; left; reflexivity).
    destruct p as [| | | | | | | | | |[|]]; try contradiction; cbn [den]; apply adj_gate1; auto; intros [] []; simpl;
      rewrite ?Cconj_opp, ?Cconj_Ci, ?Cconj_inv_sqrt2, ?Cconj_RtoC; try reflexivity; try ring.
  - destruct Hok as [<- Nq]. cbn [den]. apply adj_gate; auto. intros r c Hr Hc. unfold ketbra. rewrite Cconj_mult. destruct (eqbits r k), (eqbits c k); rewrite ?Cconj_RtoC; ring.
  - cbn [den]. apply adj_swap; auto; apply Hs; simpl; auto.
  - cbn [den]. destruct Hok as [H1 H2]. apply (adj_ctrl fs Hn (fun q => q = a \/ q = b)).
    + apply loc_swap; auto.
    + intros q [<-|[]] [->| ->]; congruence.
    + intros q [<-|[]]. apply Hs; left; reflexivity.
    + apply adj_swap; auto; apply Hs; simpl; auto.
  - cbn [den]. destruct Hok as [Hd Hok]. apply (adj_ctrl fs Hn (fun q => In q (qubits b))); [apply den_loc|exact Hd|intros; apply Hs, in_app_iff; auto|apply IH; [intros; apply Hs, in_app_iff; auto|exact Hok]].
  - cbn [den]. destruct Hok as [Hd Hok]. apply (adj_ctrl fs Hn (fun q => In q (qubits b))); [apply den_loc|exact Hd|intros; apply Hs, in_app_iff; auto|apply IH; [intros; apply Hs, in_app_iff; auto|exact Hok]].
  - cbn [den]. destruct Hok as [Hr Hok]. replace (scaleop (ev rho e) (den rho b)) with (scaleop (Cconj (ev rho e)) (den rho b)) at 2.
    + apply adj_scale. apply IH; assumption.
    + f_equal. apply Ceq; unfold Cconj; simpl; lra.
  - destruct Hok as [D Hok]. rewrite den_kron. apply kron_adj; [exact Hn|exact Hs|exact D|]. rewrite Forall_forall in IH |- *. intros b I. apply IH; [exact I| |].
    + intros q J. apply Hs. apply in_flat_map. exists b. auto.
    + clear -I Hok. induction bs as [|x bs IHb]; [destruct I|]. destruct Hok as [H1 H2]. destruct I as [<-|I]; auto.
  - rewrite den_add. revert Hs Hok. induction IH as [|b bs Hb _ IHb]; intros Hs Hok; cbn [dadd fold_right]; [apply adj_zero|]. destruct Hok as [H1 H2].
    apply adj_add; [apply Hb; [|exact H1]|apply IHb; [|exact H2]]; intros q I; apply Hs; simpl; apply in_app_iff; auto.
Qed.
Theorem C49_real_expectation : forall rho n b psi, (forall q, In q (qubits b) -> (q < n)%nat) -> herm_block rho b -> snd (expval n psi (den rho b)) = 0%R.
Proof.
  intros rho n b psi Hq Hh. assert (W : within n (den rho b)) by (apply within_den; exact Hq).
  pose proof (C49_hermitian rho b (seq 0 n) (seq_NoDup _ _) (below n b Hq) Hh) as A. pose proof (inner_adj n _ _ psi psi W W A) as E. rewrite <- (inner_conj n psi (den rho b psi)) in E. unfold expval.
  apply (f_equal snd) in E. unfold Cconj in E. simpl in E. change (snd (inner n psi (den rho b psi)) = 0)%R. lra.
Qed.

(** Not gates: a projector and the number operator lose norm. *)
Theorem C49_projector_refuted : exists psi, normalised 1 psi /\ ~ normalised 1 (den (fun _ => 0%R) (BProj [true] [true] [0%nat]) psi) /\ ~ normalised 1 (den (fun _ => 0%R) (BPrim (PN true) 0) psi).
Proof.
  exists (ket [0%nat] [false]). unfold normalised, inner, amps. cbn -[eqbits]. unfold gate1, gate, ketbra, ket, of_mat2, upd. cbn.
  split; [unfold Cconj; simpl; apply Ceq; simpl; ring|]. split; intros H; apply (f_equal fst) in H; simpl in H; lra.
Qed.

(** * Instances *)
Definition ex_circuit : block :=
  BChain [BPrim PH 0; BCtrl [0%nat] (BPrim PX 1); BRot RX_ 1 (EVar "a"); BEvo (BAdd [BPrim PZ 0; BScale (BKron [BPrim PX 0; BPrim PX 1]) (ECst (RtoC 2))]) (EVar "t")].
Example C49_ex_gates : forall rho, gate_block rho ex_circuit /\ dag_ok rho ex_circuit /\ (forall q, In q (qubits ex_circuit) -> (q < 2)%nat).
Proof.
  intros rho. assert (H : adj_on (uqubits (BAdd [BPrim PZ 0; BScale (BKron [BPrim PX 0; BPrim PX 1]) (ECst (RtoC 2))])) (den rho (BAdd [BPrim PZ 0; BScale (BKron [BPrim PX 0; BPrim PX 1]) (ECst (RtoC 2))])) (den rho (BAdd [BPrim PZ 0; BScale (BKron [BPrim PX 0; BPrim PX 1]) (ECst (RtoC 2))]))).
  { intros r c Hr Hc. apply (C49_hermitian rho _ _ (NoDup_nodup _ _)); [intros q I; apply in_uqubits; exact I| |exact Hr|exact Hc].
    cbn. repeat split; try lra. constructor; [|repeat constructor]. constructor; [|constructor]. simpl. intros q [<-|[]] [E|[]]. discriminate. }
  split; [|split].
  - cbn [ex_circuit gate_block fold_right unitary_prim]. repeat split; try exact H. simpl. intros q [<-|[]] [E|[]]. discriminate.
  - cbn [ex_circuit dag_ok fold_right]. repeat split; try exact H. simpl. intros q [<-|[]] [E|[]]. discriminate.
  - simpl. lia.
Qed.
Print Assumptions C49_unitary.
Print Assumptions C49_dagger_inverse.
Print Assumptions C49_hermitian.
Print Assumptions C49_real_expectation.
Print Assumptions C49_projector_refuted.
