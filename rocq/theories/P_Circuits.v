(** C90: functions on circuits and the register of the circuit. *)
From Coq Require Import String Reals List Arith Bool Lia Lra FunctionalExtensionality.
From Coquelicot Require Import Coquelicot.
From Coq Require Import List.
From Verif Require M_Register M_Digitalize.
From Verif Require Import S_Ops M_QubitSupport M_Block M_BlockOps M_Tensor M_Transpile M_Fill S_Den S_Sets S_Transpile L_Ops L_Den L_Diag L_Transpile P_Fill P_Qft M_Rydberg P_Rydberg P_Stretch M_Circuits.
Import ListNotations.
Open Scope R_scope.

(** * Specification *)
(** The operator of a circuit: that of its block, with the interactions of its own register and device. *)
Definition runs (c6_dict : nat -> option R) (rho : env) (c : circuit) (E : Op) : Prop :=
  exists d k, c_dev c = Some d /\ strength_of c6_dict d = Some k /\ means rho d k (c_reg c) (c_block c) E.
(** no analog part *)
Fixpoint digital (t : tree) : Prop :=
  match t with
  | TInt _ _ _ | TRot _ _ _ _ _ _ | TAChain _ | TAKron _ => False
  | TLeaf _ => True
  | TChain bs | TKron bs | TAdd bs => fold_right (fun t k => digital t /\ k) True bs
  end.
(** the krons inside the scaled blocks are on disjoint qubits *)
Fixpoint leaves_ok (t : tree) : Prop :=
  match t with
  | TLeaf b => krons_ok b
  | TChain bs | TKron bs | TAdd bs => fold_right (fun t k => leaves_ok t /\ k) True bs
  | _ => True
  end.

(** * Compositions of functions *)
Lemma fold_none {A} (l : list (A -> option A)) : fold_left (fun acc f => obind acc f) l None = None.
Proof. induction l; [reflexivity|exact IHl]. Qed.
Lemma transpile_cons {A} (f : A -> option A) fs x : transpile (f :: fs) x = obind (transpile fs x) f.
Proof. unfold transpile. cbn [rev]. rewrite fold_left_app. reflexivity. Qed.
(** [transpile] applies the functions from the last to the first; functions on blocks made into functions on circuits act on the
    block and keep the register and its device. *)
Theorem C90_transpile : (forall (A : Type) (f : A -> option A) fs x, transpile [] x = Some x /\ transpile (f :: fs) x = obind (transpile fs x) f) /\
  (forall fs c, transpile (map blockfn_to_circfn fs) c = omap (fun t => Circuit (c_reg c) (c_dev c) t) (transpile fs (c_block c))).
Proof.
  split; [intros A f fs x; split; [reflexivity|apply transpile_cons]|]. intros fs c. induction fs as [|f fs IH]; [destruct c; reflexivity|].
  cbn [map]. rewrite !transpile_cons, IH. unfold omap, blockfn_to_circfn. destruct (transpile fs (c_block c)); [|reflexivity]. cbn. destruct (f t); reflexivity.
Qed.

(** * Digital blocks *)
Definition op (k : kind) : Op -> Op -> Op := match k with KAdd => addop | _ => seqop end.
Definition unit_of (k : kind) : Op := match k with KAdd => zeroop | _ => idop end.
Section Means.
  Variables (rho : env) (d : device) (c : R) (r : M_Register.register).
  Local Notation means := (means rho d c r).
  Lemma means_nil k E : means (tcomp k []) E <-> E = unit_of k. Proof. destruct k; reflexivity. Qed.
  Lemma means_cons k t ts E : means (tcomp k (t :: ts)) E <-> exists A B, means t A /\ means (tcomp k ts) B /\ E = op k A B. Proof. destruct k; reflexivity. Qed.
  Lemma op_assoc k A B D : op k (op k A B) D = op k A (op k B D). Proof. destruct k; [apply seqop_assoc|apply seqop_assoc|apply addop_assoc]. Qed.
  Lemma op_unit_l k A : op k (unit_of k) A = A. Proof. destruct k; [apply seqop_id_l|apply seqop_id_l|apply addop_zero_l]. Qed.
  Lemma op_unit_r k A : op k A (unit_of k) = A. Proof. destruct k; [apply seqop_id_r|apply seqop_id_r|apply addop_zero_r]. Qed.
  Lemma means_app k l m E : means (tcomp k (l ++ m)) E <-> exists A B, means (tcomp k l) A /\ means (tcomp k m) B /\ E = op k A B.
  Proof.
    revert E. induction l as [|t l IH]; intros E; cbn [app].
    - split; [intros H; exists (unit_of k), E; split; [apply means_nil; reflexivity|split; [exact H|symmetry; apply op_unit_l]]|].
      intros (A & B & HA & HB & ->). apply means_nil in HA. subst A. rewrite op_unit_l. exact HB.
    - rewrite means_cons. split.
      + intros (A & B & HA & HB & ->). apply IH in HB as (B1 & B2 & H1 & H2 & ->). exists (op k A B1), B2. split; [apply means_cons; eauto|]. split; [exact H2|]. symmetry. apply op_assoc.
      + intros (A & B & HA & HB & ->). apply means_cons in HA as (A1 & A2 & H1 & H2 & ->). exists A1, (op k A2 B). split; [exact H1|]. split; [apply IH; eauto|]. apply op_assoc.
  Qed.
  Lemma means_one k t E : means (tcomp k [t]) E <-> means t E.
  Proof.
    rewrite means_cons. split; [intros (A & B & H & HB & ->); apply means_nil in HB; subst B; rewrite op_unit_r; exact H|].
    intros H. exists E, (unit_of k). split; [exact H|]. split; [apply means_nil; reflexivity|symmetry; apply op_unit_r].
  Qed.
  Lemma means_parts k l m : Forall2 (fun t t' => forall E, means t' E <-> means t E) l m -> forall E, means (tcomp k m) E <-> means (tcomp k l) E.
  Proof.
    induction 1 as [|t t' l m H _ IH]; intros E; [tauto|]. rewrite !means_cons. split; intros (A & B & H1 & H2 & ->); exists A, B; (split; [apply H; exact H1|]; split; [apply IH; exact H2|reflexivity]).
  Qed.
End Means.

(** A block without analog parts means the same on every register and device. *)
Theorem C90_digital : forall rho d k r d' k' r' t, digital t -> forall E, means rho d k r t E <-> means rho d' k' r' t E.
Proof.
  intros rho d k r d' k' r'. assert (C : forall K bs, Forall (fun t => digital t -> forall E, means rho d k r t E <-> means rho d' k' r' t E) bs -> fold_right (fun t k => digital t /\ k) True bs ->
    forall E, means rho d k r (tcomp K bs) E <-> means rho d' k' r' (tcomp K bs) E).
  { intros K bs F. induction F as [|t bs H _ IH]; intros D E; [rewrite !means_nil; tauto|]. destruct D as [D1 D2]. rewrite !means_cons.
    split; intros (A & B & H1 & H2 & ->); exists A, B; (split; [apply (H D1); exact H1|]; split; [apply (IH D2); exact H2|reflexivity]). }
  induction t as [dur s ap|dur om de ph s ap|bs IH|bs IH|b|bs IH|bs IH|bs IH] using tree_ind'; intros D; try contradiction D.
  - reflexivity.
  - exact (C KChain bs IH D).
  - exact (C KKron bs IH D).
  - exact (C KAdd bs IH D).
Qed.

(** * Flattening *)
Definition same_meaning (t t' : tree) : Prop := forall rho d k r E, means rho d k r t' E <-> means rho d k r t E.
Lemma leaves_parts bs : fold_right (fun t k => leaves_ok t /\ k) True bs <-> Forall leaves_ok bs.
Proof. induction bs as [|t bs IH]; cbn; split; intros H; [constructor|exact I|destruct H; constructor; tauto|inversion H; tauto]. Qed.
Lemma leaves_comp k bs : leaves_ok (tcomp k bs) <-> Forall leaves_ok bs. Proof. rewrite <- leaves_parts. destruct k; reflexivity. Qed.
Lemma osequence_each {A B} (f : A -> option B) : forall l ys, osequence (map f l) = Some ys -> Forall2 (fun x y => f x = Some y) l ys.
Proof.
  induction l as [|x l IH]; cbn; intros ys H; [injection H as <-; constructor|]. destruct (f x) as [y|] eqn:E; [|discriminate H]. cbn in H.
  destruct (osequence (map f l)) as [zs|] eqn:Z; [|discriminate H]. injection H as <-. constructor; [exact E|]. apply IH. reflexivity.
Qed.
Section Flatten.
  Variable si : list nat -> list nat.
  Hypothesis Hs : set_order si.
  Variable T : kind.
  Definition good (t : tree) : Prop := leaves_ok t ->
    (forall y, snd (cflatp si T t) = Some y -> same_meaning t y /\ leaves_ok y) /\
    (has_kind T t = true -> forall ys, fst (cflatp si T t) = Some ys -> same_meaning t (tcomp T ys) /\ Forall leaves_ok ys).
  Lemma kind_eqb_eq a b : kind_eqb a b = true -> a = b. Proof. destruct a, b; (reflexivity || discriminate). Qed.
  Definition go (k : kind) (bs : list tree) : option (list tree) :=
    if kind_eqb k T
    then omap (@concat tree) (osequence (map (fun x => if has_kind T x then fst (cflatp si T x) else omap (fun y => [y]) (snd (cflatp si T x))) bs))
    else osequence (map (fun x => snd (cflatp si T x)) bs).
  Lemma good_comp k bs : Forall good bs -> Forall leaves_ok bs -> forall ys, go k bs = Some ys -> same_meaning (tcomp k bs) (tcomp k ys) /\ Forall leaves_ok ys.
  Proof.
    intros G L ys H. unfold go in H. destruct (kind_eqb k T) eqn:K.
    - apply kind_eqb_eq in K. subst k. unfold omap in H at 1. match type of H with obind (osequence (map ?f bs)) _ = _ => destruct (osequence (map f bs)) as [zs|] eqn:E; [|discriminate H]; apply (osequence_each f) in E end.
      injection H as <-. induction E as [|x z l l' Ex _ IH]; [split; [intros rho d k r E; tauto|constructor]|].
      inversion G as [|? ? G1 G2]; subst. inversion L as [|? ? L1 L2]; subst. destruct (IH G2 L2) as [M1 M2]. destruct (G1 L1) as [S1 S2].
      assert (X : same_meaning x (tcomp T z) /\ Forall leaves_ok z).
      { destruct (has_kind T x) eqn:Hx; [apply S2; [reflexivity|exact Ex]|]. unfold omap in Ex. destruct (snd (cflatp si T x)) as [y|]; [|discriminate Ex]. injection Ex as <-. destruct (S1 y eq_refl) as [Q1 Q2].
        split; [|repeat constructor; exact Q2]. intros rho d k r E. rewrite means_one. apply Q1. }
      destruct X as [X1 X2]. cbn [concat]. split; [|apply Forall_app; auto]. intros rho d k r E. rewrite means_app, means_cons.
      split; intros (A & B & H1 & H2 & ->); exists A, B; (split; [apply X1; exact H1|]; split; [apply M1; exact H2|reflexivity]).
    - apply (osequence_each (fun x => snd (cflatp si T x))) in H. split.
      + intros rho d k0 r E. apply means_parts. induction H as [|x y l l' Ex _ IH]; [constructor|]. inversion G as [|? ? G1 G2]; subst. inversion L as [|? ? L1 L2]; subst. constructor; [|auto]. destruct (G1 L1) as [S1 _]. destruct (S1 y Ex) as [Q _]. apply Q.
      + induction H as [|x y l l' Ex _ IH]; [constructor|]. inversion G as [|? ? G1 G2]; subst. inversion L as [|? ? L1 L2]; subst. constructor; [|auto]. destruct (G1 L1) as [S1 _]. apply (S1 y Ex).
  Qed.
  Lemma cflatp_comp k bs : cflatp si T (tcomp k bs) = (go k bs, omap (tcomp k) (go k bs)). Proof. destruct k; reflexivity. Qed.
  Lemma good_all t : good t.
  Proof.
    assert (C : forall k bs, Forall good bs -> good (tcomp k bs)).
    { intros k bs F L. apply leaves_comp in L. rewrite cflatp_comp. cbn [fst snd]. split.
      - intros y H. unfold omap in H. destruct (go k bs) as [ys|] eqn:E; [|discriminate H]. injection H as <-. destruct (good_comp k bs F L ys E) as [Q1 Q2]. split; [exact Q1|apply leaves_comp, Q2].
      - intros Hk ys E. assert (k = T) as -> by (apply kind_eqb_eq; destruct k; exact Hk). apply good_comp; assumption. }
    assert (I : forall t, cflatp si T t = (Some [t], Some t) -> has_kind T t = false -> good t).
    { intros t0 E H L. rewrite E. split; [intros y [= <-]; split; [intros rho d k r O; tauto|exact L]|rewrite H; discriminate]. }
    induction t as [dur s ap|dur om de ph s ap|bs IH|bs IH|b|bs IH|bs IH|bs IH] using tree_ind'; try (apply I; reflexivity).
    - intros L. cbn [leaves_ok] in L. split; [|discriminate]. intros y H. cbn [cflatp snd] in H. destruct (flat_step si Hs T b L) as (z & Z & S). rewrite Z in H. injection H as <-.
      destruct S as (S1 & _ & _ & _ & S5 & _). split; [|exact S1]. intros rho d k r E. cbn [means]. rewrite S5. tauto.
    - apply (C KChain), IH.
    - apply (C KKron), IH.
    - apply (C KAdd), IH.
  Qed.
End Flatten.
Lemma cflatten_same si types t y : set_order si -> leaves_ok t -> cflatten si types t = Some y -> same_meaning t y /\ leaves_ok y.
Proof.
  intros Hs. revert t. induction types as [|T types IH]; intros t L H; [injection H as <-; split; [intros rho d k r E; tauto|exact L]|].
  unfold cflatten in H. cbn [fold_left obind] in H. destruct (snd (cflatp si T t)) as [m|] eqn:E.
  - destruct (proj1 (good_all si Hs T t L) m E) as [M1 M2]. destruct (IH m M2 H) as [N1 N2]. split; [|exact N2]. intros rho d k r E0. specialize (N1 rho d k r E0). specialize (M1 rho d k r E0). tauto.
  - exfalso. clear - H. induction types as [|T' types IH]; [discriminate H|]. exact (IH H).
Qed.

(** * The register afterwards *)
(** [flatten], [dagger], [digitalize] of a circuit, and [fill_identities] when a qubit has no gate, make a circuit on as many qubits with the default
    register and device; [fill_identities] of a circuit with gates on all qubits is that circuit. *)
Theorem C90_new_register : forall si layout c,
  (forall types c', flatten_circuit si layout types c = Some c' -> c_reg c' = Register layout (n_qubits c) /\ c_dev c' = Some default_device) /\
  (forall c', dagger_circuit layout c = Some c' -> c_reg c' = Register layout (n_qubits c) /\ c_dev c' = Some default_device) /\
  (forall a c', digitalize_circuit si layout a c = Some c' -> c_reg c' = Register layout (n_qubits c) /\ c_dev c' = Some default_device) /\
  (let c' := fill_circuit si layout c in c' = c \/ c_reg c' = Register layout (n_qubits c) /\ c_dev c' = Some default_device).
Proof.
  intros si layout c. split; [|split; [|split]].
  - intros types c' H. unfold flatten_circuit, omap in H. destruct (cflatten si types (c_block c)); [|discriminate H]. injection H as <-. split; reflexivity.
  - intros c' H. unfold dagger_circuit, omap in H. destruct (cdagger (c_block c)); [|discriminate H]. injection H as <-. split; reflexivity.
  - intros a c' H. unfold digitalize_circuit, omap in H. destruct (cdigitalize si a (c_block c)); [|discriminate H]. injection H as <-. split; reflexivity.
  - cbv zeta. unfold fill_circuit. destruct (set_diff _ _ _); [left; reflexivity|right; split; reflexivity].
Qed.
Lemma fill_same si layout c : same_meaning (c_block c) (c_block (fill_circuit si layout c)).
Proof.
  intros rho d k r E. unfold fill_circuit. destruct (set_diff _ _ _) as [|w ws]; [tauto|]. cbn [c_block QuantumCircuit].
  assert (I : forall l B, means rho d k r (TChain (map (fun i => TLeaf (idb i)) l)) B <-> B = idop).
  { induction l as [|i l IH]; intros B; [apply (means_nil rho d k r KChain)|]. cbn [map]. rewrite (means_cons rho d k r KChain). split.
    - intros (X & Y & HX & HY & ->). apply IH in HY. cbn [means] in HX. subst X Y. rewrite den_idb. apply (op_unit_l KChain).
    - intros ->. exists idop, idop. split; [cbn [means]; symmetry; apply den_idb|]. split; [apply IH; reflexivity|symmetry; apply (op_unit_l KChain)]. }
  change (TChain [c_block c; TChain (map (fun i => TLeaf (idb i)) (w :: ws))]) with (tcomp KChain [c_block c; TChain (map (fun i => TLeaf (idb i)) (w :: ws))]).
  rewrite means_cons. split.
  - intros (A & B & HA & HB & ->). apply means_one, I in HB. subst B. rewrite (op_unit_r KChain). exact HA.
  - intros H. exists E, idop. split; [exact H|]. split; [apply means_one, I; reflexivity|symmetry; apply (op_unit_r KChain)].
Qed.
(** On any register the block of the circuit after [flatten] or [fill_identities] does what the given block does; so these keep what the circuit does
    when its register and device are the default ones, and when it has no analog parts. *)
Theorem C90_same : forall si layout c6_dict rho c c', set_order si -> leaves_ok (c_block c) ->
  (exists types, flatten_circuit si layout types c = Some c') \/ fill_circuit si layout c = c' ->
  (forall d k r E, means rho d k r (c_block c') E <-> means rho d k r (c_block c) E) /\
  (c_reg c = Register layout (n_qubits c) -> c_dev c = Some default_device -> forall E, runs c6_dict rho c' E <-> runs c6_dict rho c E) /\
  (digital (c_block c) -> c6_dict 60%nat <> None -> (exists d, c_dev c = Some d /\ strength_of c6_dict d <> None) -> forall E, runs c6_dict rho c' E <-> runs c6_dict rho c E).
Proof.
  intros si layout c6 rho c c' Hs L H.
  assert (S : same_meaning (c_block c) (c_block c')).
  { destruct H as [[types H]|<-]; [|apply fill_same]. unfold flatten_circuit, omap in H. destruct (cflatten si types (c_block c)) as [y|] eqn:E; [|discriminate H]. injection H as <-. apply (cflatten_same si types _ y Hs L E). }
  assert (R : c' = c \/ c_reg c' = Register layout (n_qubits c) /\ c_dev c' = Some default_device).
  { destruct (C90_new_register si layout c) as (N1 & _ & _ & N4). destruct H as [[types H]|<-]; [right; eapply N1, H|exact N4]. }
  split; [intros d k r E; apply S|]. split.
  - intros Er Ed E. destruct R as [->|[R1 R2]]; [tauto|]. unfold runs. rewrite R1, R2, Er, Ed. split; intros (d & k & D & K & M); exists d, k; (split; [exact D|]; split; [exact K|]); apply S; exact M.
  - intros D K (d0 & Ed & Kd) E. destruct R as [->|[R1 R2]]; [tauto|]. unfold runs. rewrite R1, R2, Ed. destruct (strength_of c6 d0) as [k0|] eqn:E0; [|contradiction Kd; reflexivity]. destruct (c6 60%nat) as [k1|] eqn:E1; [|contradiction K; reflexivity]. split.
    + intros (d & k & Dd & Kk & M). exists d0, k0. split; [reflexivity|]. split; [exact E0|]. apply S in M. eapply C90_digital; [exact D|exact M].
    + intros (d & k & Dd & Kk & M). exists default_device, k1. split; [reflexivity|]. split; [exact E1|]. apply S. eapply C90_digital; [exact D|exact M].
Qed.
(** * Measuring *)
(** Estimating a Pauli term rotates the circuit on its own register: what is sampled is the given circuit followed by the rotations. *)
Theorem C90_rotate : forall c6_dict rho c rotations E,
  runs c6_dict rho (rotate c rotations) E <-> exists A, runs c6_dict rho c A /\ E = seqop A (den rho (BChain rotations)).
Proof.
  intros c6 rho c rots E. unfold runs, rotate. cbn [c_dev c_reg c_block].
  assert (M : forall d k r B, means rho d k r (TChain (map TLeaf rots)) B <-> B = den rho (BChain rots)).
  { intros d k r. induction rots as [|b l IH]; intros B; [apply (means_nil rho d k r KChain)|]. cbn [map]. rewrite (means_cons rho d k r KChain). change (den rho (BChain (b :: l))) with (seqop (den rho b) (den rho (BChain l))). split.
    - intros (X & Y & HX & HY & ->). apply IH in HY. cbn [means] in HX. subst. reflexivity.
    - intros ->. exists (den rho b), (den rho (BChain l)). split; [reflexivity|]. split; [apply IH; reflexivity|reflexivity]. }
  split.
  - intros (d & k & D & K & H). apply (means_cons rho d k (c_reg c) KChain) in H as (A & B & HA & HB & ->). apply M in HB. subst B. exists A. split; [eauto|reflexivity].
  - intros (A & (d & k & D & K & H) & ->). exists d, k. split; [exact D|]. split; [exact K|]. apply (means_cons rho d k (c_reg c) KChain). exists A, (den rho (BChain rots)). split; [exact H|]. split; [apply M; reflexivity|reflexivity].
Qed.

(** * Two atoms *)
Lemma line_two s : 0 < s -> M_Register.line 2 s = [(0%nat, (0 * s, 0 * s)); (1%nat, (1 * s, 0 * s))].
Proof.
  intros Hs. unfold M_Register.line, M_Register.Register_init. assert (M : M_Register.min_distance (M_Register.line_graph 2) = 1).
  { unfold M_Register.min_distance, M_Register.distances, M_Register.all_node_pairs, M_Register.line_graph. cbn. unfold M_Register.pair_dist. cbn. unfold M_Register.dist. cbn. replace ((0 - 1) * ((0 - 1) * 1) + (0 - 0) * ((0 - 0) * 1)) with 1 by ring. apply sqrt_1. }
  rewrite M. destruct (Req_EM_T 1 0) as [Q|_]; [lra|]. unfold M_Register.scale_node_positions, M_Register.line_graph. cbn [seq map fst snd INR]. unfold Rdiv. rewrite Rinv_1, !Rmult_1_r. reflexivity.
Qed.
Lemma two_background c s ap : 0 < s -> H_background default_device c (M_Register.line 2 s) ap = rdiag (fun x => c / s ^ 6 * (b2r (x 0%nat) * b2r (x 1%nat)))%R.
Proof.
  intros Hs. rewrite line_two by exact Hs. unfold H_background. cbn [d_pattern default_device d_coupling]. rewrite addop_zero_r. unfold H_int, sum_of. cbn [fold_right fst snd Nat.ltb Nat.leb]. unfold pair_term. cbv zeta. cbn [fst snd].
  unfold M_Register.dist. cbn [fst snd]. replace ((0 * s - 1 * s) ^ 2 + (0 * s - 0 * s) ^ 2)%R with (s * s)%R by ring. rewrite sqrt_square by lra. rewrite !addop_zero_l, !addop_zero_r. unfold N_. rewrite !n_rdiag, rdiag_seq, rdiag_scale. apply rdiag_ext. intros x. reflexivity.
Qed.
Definition waiting (s dur : R) (on : support) : circuit := Circuit (M_Register.line 2 s) (Some default_device) (TInt dur on true).
Lemma waiting_runs c6 rho c s dur on E : c6 60%nat = Some c -> 0 < s -> (runs c6 rho (waiting s dur on) E <-> E = diag (fun x => - (dur / 1000 * (c / s ^ 6 * (b2r (x 0%nat) * b2r (x 1%nat)))))).
Proof.
  intros Ec Hs. unfold runs, waiting. cbn [c_dev c_reg c_block means]. split.
  - intros (d & k & [= <-] & K & H). unfold strength_of in K. cbn [d_coupling default_device d_level] in K. assert (k = c) as -> by congruence. rewrite two_background in H by exact Hs. eapply evolves_unique; [exact H|apply evolves_rdiag].
  - intros ->. exists default_device, c. split; [reflexivity|]. split; [exact Ec|]. rewrite two_background by exact Hs. apply evolves_rdiag.
Qed.
Lemma waiting_differs c s : c <> 0 -> 1 < s -> let F s x := - (1000 * (PI / c) / 1000 * (c / s ^ 6 * (b2r (x 0%nat) * b2r (x 1%nat)))) in diag (F 1) <> diag (F s).
Proof.
  intros Hc Hs F Q. apply (f_equal (fun O : Op => O (fun _ => RtoC 1) (fun _ => true))) in Q. unfold diag in Q. rewrite !Cmult_1_r in Q. unfold F, b2r in Q.
  assert (P6 : 1 < s ^ 6) by (apply Rlt_pow_R1; [exact Hs|lia]). pose proof PI_RGT_0.
  replace (- (1000 * (PI / c) / 1000 * (c / 1 ^ 6 * (1 * 1)))) with (- PI) in Q by (field; exact Hc).
  replace (- (1000 * (PI / c) / 1000 * (c / s ^ 6 * (1 * 1)))) with (- (PI / s ^ 6)) in Q by (field; split; [lra|exact Hc]).
  unfold cis in Q. rewrite !cos_neg, cos_PI in Q. injection Q as Q _.
  assert (B : 0 < PI / s ^ 6 < PI).
  { split; [apply Rdiv_lt_0_compat; lra|]. apply (Rmult_lt_reg_r (s ^ 6)); [lra|]. unfold Rdiv. rewrite Rmult_assoc, Rinv_l, Rmult_1_r by lra. rewrite <- (Rmult_1_r PI) at 1. apply Rmult_lt_compat_l; lra. }
  assert (cos PI < cos (PI / s ^ 6)) by (apply cos_decreasing_1; lra). rewrite cos_PI in H0. change (-1 = cos (PI / s ^ 6)) in Q. lra.
Qed.
(** Flattening, or filling with identities, a circuit of two atoms that wait at a distance other than 1 changes what it does: the atoms of the
    new circuit are at the distance 1 of the default register.  The same happens to the circuits a shadow samples on other backends than PyQTorch. *)
Theorem C90_register_refuted : forall si layout c6_dict c s, set_order si -> c6_dict 60%nat = Some c -> c <> 0 -> 1 < s -> exists C C' C'' C3 A A',
  c_reg C = M_Register.line 2 s /\ c_block C'' = TChain [c_block C; TChain [TLeaf (idb 1)]] /\
  flatten_circuit si layout [KChain; KKron; KAdd] C = Some C' /\ c_block C' = c_block C /\ fill_circuit si layout C = C'' /\ shadow_circuit layout C None = C3 /\ A <> A' /\
  forall rho, runs c6_dict rho C A /\ runs c6_dict rho C' A' /\ runs c6_dict rho C'' A' /\ runs c6_dict rho C3 A'.
Proof.
  intros si layout c6 c s Hs Ec Hc H1. set (C := waiting s (1000 * (PI / c)) (SLocal [0%nat])). set (C' := QuantumCircuit layout 2 (c_block C)).
  assert (L2 : n_qubits C = 2%nat) by (unfold n_qubits, C, waiting; cbn [c_reg]; rewrite line_two by lra; reflexivity).
  assert (W : set_diff si (seq 0 2) (locals (tsupport si (c_block C))) = [1%nat]).
  { unfold set_diff. cbn. destruct (Hs [1%nat]) as [N I]. destruct (si [1%nat]) as [|a [|b l]].
    - destruct (proj2 (I 1%nat)). left. reflexivity.
    - destruct (proj1 (I a)) as [<-|[]]; [left; reflexivity|reflexivity].
    - assert (a = 1%nat) by (destruct (proj1 (I a)) as [<-|[]]; [left; reflexivity|reflexivity]). assert (b = 1%nat) by (destruct (proj1 (I b)) as [<-|[]]; [right; left; reflexivity|reflexivity]).
      subst. inversion N as [|? ? X _]. exfalso. apply X. left. reflexivity. }
  assert (F2 : fill_circuit si layout C = QuantumCircuit layout 2 (TChain [c_block C; TChain [TLeaf (idb 1)]])) by (unfold fill_circuit; rewrite L2, W; reflexivity).
  assert (Reg : Register layout 2 = M_Register.line 2 1) by reflexivity.
  exists C, C', (fill_circuit si layout C), C'. do 2 eexists. split; [reflexivity|]. split; [rewrite F2; reflexivity|].
  split; [unfold flatten_circuit; rewrite L2; reflexivity|]. split; [reflexivity|]. split; [reflexivity|]. split; [unfold shadow_circuit; rewrite L2; reflexivity|].
  split; [apply not_eq_sym, (waiting_differs c s Hc H1)|]. intros rho.
  assert (R' : runs c6 rho C' (diag (fun x => - (1000 * (PI / c) / 1000 * (c / 1 ^ 6 * (b2r (x 0%nat) * b2r (x 1%nat))))))) by (apply (waiting_runs c6 rho c 1 _ (SLocal [0%nat])); [exact Ec|lra|reflexivity]).
  split; [apply (waiting_runs c6 rho c s _ _ _ Ec); [lra|reflexivity]|]. split; [exact R'|]. split; [|exact R'].
  destruct R' as (d & k & D & K & M). exists d, k. rewrite F2. split; [exact D|]. split; [exact K|]. cbn [c_reg c_block QuantumCircuit C'] in M |- *.
  pose proof (fill_same si layout C rho d k (Register layout 2) (diag (fun x => - (1000 * (PI / c) / 1000 * (c / 1 ^ 6 * (b2r (x 0%nat) * b2r (x 1%nat))))))) as Q. rewrite F2 in Q. apply Q. exact M.
Qed.
(** * Daggers *)
(** the digital block of a tree without analog parts *)
Fixpoint plain (t : tree) : block :=
  match t with TLeaf b => b | TChain bs => BChain (map plain bs) | TKron bs => BKron (map plain bs) | TAdd bs => BAdd (map plain bs) | _ => BChain [] end.
Lemma plain_means rho d k r t : digital t -> forall E, means rho d k r t E <-> E = den rho (plain t).
Proof.
  induction t as [dur s ap|dur om de ph s ap|bs IH|bs IH|b|bs IH|bs IH|bs IH] using tree_ind'; intros D E; try contradiction D; [reflexivity|..].
  all: revert E; induction IH as [|t bs H _ IH']; intros E; [reflexivity|]; destruct D as [D1 D2]; specialize (H D1); specialize (IH' D2);
    cbn [means fold_right] in *; cbn [plain map den fold_right] in *; split;
    [intros (A & B & HA & HB & ->); apply H in HA; apply IH' in HB; subst; reflexivity|intros ->; do 2 eexists; split; [apply H; reflexivity|]; split; [apply IH'; reflexivity|reflexivity]].
Qed.
(** The dagger of a circuit is refused exactly when the circuit has an analog part; otherwise it does what the dagger of its block does. *)
Theorem C90_dagger : forall layout c, (dagger_circuit layout c <> None <-> digital (c_block c)) /\
  forall c', dagger_circuit layout c = Some c' -> forall rho d k r E, means rho d k r (c_block c') E <-> E = den rho (dagger (plain (c_block c))).
Proof.
  intros layout c.
  assert (G : forall t, match cdagger t with Some t' => digital t /\ digital t' /\ plain t' = dagger (plain t) | None => ~ digital t end).
  { assert (L : forall bs, Forall (fun t => match cdagger t with Some t' => digital t /\ digital t' /\ plain t' = dagger (plain t) | None => ~ digital t end) bs ->
      match osequence (map cdagger bs) with
      | Some l => fold_right (fun t k => digital t /\ k) True bs /\ fold_right (fun t k => digital t /\ k) True (rev l) /\ map plain (rev l) = rev (map dagger (map plain bs))
      | None => ~ fold_right (fun t k => digital t /\ k) True bs end).
    { assert (A : forall l m, fold_right (fun t k => digital t /\ k) True (l ++ m) <-> fold_right (fun t k => digital t /\ k) True l /\ fold_right (fun t k => digital t /\ k) True m) by (induction l as [|x l IHl]; intros m; cbn; [tauto|rewrite IHl; tauto]).
      induction 1 as [|t bs H _ IH]; [cbn; tauto|]. cbn [map osequence obind fold_right]. destruct (cdagger t) as [t'|]; [|cbn; tauto].
      destruct (osequence (map cdagger bs)) as [l|]; cbn; [|tauto]. destruct H as (H1 & H2 & H3), IH as (I1 & I2 & I3).
      split; [tauto|]. split; [apply A; cbn; tauto|]. rewrite map_app, I3. cbn. rewrite H3. reflexivity. }
    induction t as [dur s ap|dur om de ph s ap|bs IH|bs IH|b|bs IH|bs IH|bs IH] using tree_ind'; cbn [cdagger]; try (intros []; fail); [cbn; tauto|..].
    all: apply L in IH; unfold omap; destruct (osequence (map cdagger bs)) as [l|]; [|exact IH]; destruct IH as (I1 & I2 & I3); split; [exact I1|]; split; [exact I2|]; cbn [plain dagger]; rewrite I3; reflexivity. }
  specialize (G (c_block c)). unfold dagger_circuit, omap. destruct (cdagger (c_block c)) as [t'|].
  - destruct G as (G1 & G2 & G3). split; [split; [intros _; exact G1|discriminate]|]. intros c' [= <-] rho d k r E. cbn [c_block QuantumCircuit]. rewrite plain_means by exact G2. rewrite G3. reflexivity.
  - split; [tauto|discriminate].
Qed.
(** The hypotheses hold for a circuit with nested chains and a scaled part on the default register, and for a digital one. *)
Example C90_instance : let c := QuantumCircuit (fun _ => []) 2 (TChain [TChain [TLeaf (BPrim PH 0); TInt 100 SGlobal true]; TLeaf (BScale (BChain [BChain [BPrim PX 0]]) (EVar "x"))]) in
  c_reg c = Register (fun _ => []) (n_qubits c) /\ leaves_ok (c_block c) /\
  exists c', flatten_circuit (nodup Nat.eq_dec) (fun _ => []) [KChain; KKron; KAdd] c = Some c' /\
    c_block c' = TChain [TLeaf (BPrim PH 0); TInt 100 SGlobal true; TLeaf (BScale (BChain [BPrim PX 0]) (EVar "x"))].
Proof.
  cbv zeta. split.
  { assert (L : length (M_Register.line 2 1) = 2%nat) by (rewrite line_two by lra; reflexivity). unfold n_qubits. cbn [c_reg QuantumCircuit].
    change (length (Register (fun _ => []) 2)) with (length (M_Register.line 2 1)). rewrite L. reflexivity. }
  split; [cbn; tauto|].
  eexists. split; reflexivity.
Qed.

Print Assumptions C90_transpile.
Print Assumptions C90_digital.
Print Assumptions C90_new_register.
Print Assumptions C90_same.
Print Assumptions C90_rotate.
Print Assumptions C90_register_refuted.
Print Assumptions C90_dagger.
