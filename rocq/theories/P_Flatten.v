(** C06 (flatten) and C07 (scale_primitive_blocks_only). *)
From Coq Require Import String Reals List Arith Bool Lia Lra FunctionalExtensionality.
From Coquelicot Require Import Coquelicot.
From Coq Require Import List.
From Verif Require Import S_Sets S_Ops M_QubitSupport M_Block S_Den L_Ops L_Den L_Loc M_BlockOps L_Support M_Tensor S_Transpile M_Transpile L_Transpile P_Operators P_Dagger.
Import ListNotations.
Open Scope R_scope.
Open Scope C_scope.

(** The predicate "is of the requested type". *)
Definition of_type (T : kind) : block -> Prop :=
  match T with KChain => is_chain | KKron => is_kron | KAdd => is_add end.

(** flatten succeeds, keeps the operator, the gates and the support, and leaves no block of a requested type
    directly inside another one of that type. *)
Theorem C06_flatten : forall set_iter types b, set_order set_iter -> krons_ok b ->
  exists y, flatten set_iter types b = Some y /\
    (forall rho, den rho y = den rho b) /\ gates y = gates b /\ qubits y = qubits b /\ krons_ok y /\
    (forall T, In T types -> no_nest (of_type T) y).
Proof.
  intros si types b Hs.
  assert (Hloop : forall types b, krons_ok b -> exists y,
     fold_left (fun acc T => obind acc (fun x => snd (flatp si T x))) types (Some b) = Some y /\
     (forall rho, den rho y = den rho b) /\ gates y = gates b /\ qubits y = qubits b /\ krons_ok y /\
     (forall T, In T types -> no_nest (of_type T) y) /\
     (forall T, no_nest (of_type T) b -> no_nest (of_type T) y)).
  { clear b types. induction types as [|T types IH]; intros b Hok.
    - exists b. simpl. repeat split; auto. intros T [].
    - destruct (flat_step si Hs T b Hok) as (y & Ey & H1 & H2 & H3 & H4 & H5 & H6 & H7).
      destruct (IH y H1) as (z & Ez & G1 & G2 & G3 & G4 & G5 & G6).
      exists z. simpl. rewrite Ey. split; [exact Ez|].
      split; [intros; rewrite G1; apply H5|]. split; [congruence|]. split; [congruence|]. split; [exact G4|].
      split.
      + intros T' [<-|HT']; [apply G6; exact H6|apply G5; exact HT'].
      + intros T' HT'. apply G6. apply (H7 T'). exact HT'. }
  induction b as [k bs IH|b e IH|b Hk Hsc] using skel_ind; intros Hok.
  - destruct (Hloop types (comp k bs) Hok) as (y & Ey & H1 & H2 & H3 & H4 & H5 & _).
    exists y. split; [|auto]. destruct k; exact Ey.
  - destruct (IH Hok) as (y & Ey & H1 & H2 & H3 & H4 & H5).
    exists (BScale y e). simpl. rewrite Ey. split; [reflexivity|].
    split; [intros rho; simpl; rewrite H1; reflexivity|]. auto.
  - exists b. split.
    + destruct b; simpl in *; try reflexivity; try discriminate; tauto.
    + repeat split; auto. intros T _. destruct b; simpl in *; try exact I; try discriminate; tauto.
Qed.

(** A tree with all three kinds nested, under a scale, meets the hypothesis and is really rewritten. *)
Example C06_witness : forall set_iter, set_order set_iter ->
  let b := BChain [BChain [BPrim PX 0; BScale (BAdd [BAdd [BPrim PZ 0]; BPrim PY 0]) (EVar "s")];
                   BKron [BKron [BPrim PX 0; BPrim PX 1]; BPrim PH 2]] in
  krons_ok b /\ ~ no_nest is_chain b /\ ~ no_nest is_kron b /\ ~ no_nest is_add b /\
  exists y, flatten set_iter [KChain; KKron; KAdd] b = Some y /\ no_nest is_chain y /\ no_nest is_kron y /\ no_nest is_add y.
Proof.
  intros si Hs b.
  assert (Hok : krons_ok b).
  { simpl. repeat split; try discriminate; repeat constructor; simpl; intuition lia. }
  split; [exact Hok|]. repeat split.
  - simpl. intros (H & _). specialize (H I). inversion H; subst. apply H2. exact I.
  - simpl. intros (_ & _ & (H & _) & _). specialize (H I). inversion H; subst. apply H2. exact I.
  - simpl. intros (_ & (_ & _ & (H & _) & _) & _). specialize (H I). inversion H; subst. apply H2. exact I.
  - destruct (C06_flatten si [KChain; KKron; KAdd] b Hs Hok) as (y & Ey & _ & _ & _ & _ & HT).
    exists y. split; [exact Ey|]. split; [apply (HT KChain)|split; [apply (HT KKron)|apply (HT KAdd)]]; simpl; auto.
Qed.

(** * C07 *)
Definition scaled_by (rho : env) (s : option expr) (A : Op) : Op :=
  match s with None => A | Some e => scaleop (ev rho e) A end.

Lemma no_empty_comp k bs : no_empty_chain (comp k bs) <-> (k = KChain -> bs <> []) /\ Forall no_empty_chain bs.
Proof. destruct k; simpl; rewrite all_forall; intuition (try discriminate; auto). Qed.
Lemma scales_comp k bs : scales_at_gates (comp k bs) <-> Forall scales_at_gates bs.
Proof. destruct k; simpl; apply all_forall. Qed.

Lemma scale_prims_other si s b : kind_of b = None -> ~ is_scale b ->
  scale_prims si s b = match s with None => Some b | Some e => Some (op_scale b e) end.
Proof. destruct b; simpl; intros; try reflexivity; try discriminate; tauto. Qed.

Lemma scale_prims_ok si : set_order si -> forall b s, krons_ok b -> no_empty_chain b ->
  exists y, scale_prims si s b = Some y /\ krons_ok y /\ qubits y = qubits b /\ gates y = gates b /\
    (forall rho, den rho y = scaled_by rho s (den rho b)) /\ scales_at_gates y.
Proof.
  intros Hs b. induction b as [k bs IH|b e IH|b Hk Hsc] using skel_ind; intros s Hok Hne.
  - apply krons_ok_comp in Hok as [Hkr Hok]. apply no_empty_comp in Hne as [Hce Hne].
    set (Q := fun s b y => krons_ok y /\ qubits y = qubits b /\ gates y = gates b /\
                (forall rho, den rho y = scaled_by rho s (den rho b)) /\ scales_at_gates y).
    assert (F : forall s, Forall (fun b => exists y, scale_prims si s b = Some y /\ Q s b y) bs).
    { intros s'. rewrite Forall_forall in *. intros x Hx. apply (IH x Hx s' (Hok x Hx) (Hne x Hx)). }
    assert (Hlist : forall bs ys, Forall2 (fun b y => exists s, Q s b y) bs ys ->
      Forall krons_ok ys /\ flat_map qubits ys = flat_map qubits bs /\ flat_map gates ys = flat_map gates bs /\
      Forall scales_at_gates ys /\ (kron_ok_list bs -> kron_ok_list ys)).
    { clear. intros bs ys FF. repeat split.
      - induction FF as [|b y bs ys (s & H) FF IH]; constructor; [apply H|exact IH].
      - eapply flat_map_F2; [|exact FF]. intros b y (s & H); apply H.
      - eapply flat_map_F2; [|exact FF]. intros b y (s & H); apply H.
      - induction FF as [|b y bs ys (s & H) FF IH]; constructor; [apply H|exact IH].
      - destruct H as [Hne _]. inversion FF; subst; [congruence|discriminate].
      - destruct H as [_ Hd]. eapply fop_map; [|exact FF|exact Hd].
        intros a a' b b' (s1 & Ha) (s2 & Hb) HR q Hq Hq'.
        destruct Ha as (_ & Ea & _), Hb as (_ & Eb & _). rewrite Ea in Hq. rewrite Eb in Hq'. eapply HR; eassumption. }
    assert (Hdone : forall ys, Forall2 (fun b y => exists s, Q s b y) bs ys ->
       (forall rho, dcomp rho k ys = scaled_by rho s (dcomp rho k bs)) ->
       exists y, construct si k ys = Some y /\ krons_ok y /\ qubits y = qubits (comp k bs) /\ gates y = gates (comp k bs) /\
          (forall rho, den rho y = scaled_by rho s (den rho (comp k bs))) /\ scales_at_gates y).
    { intros ys FF Hd. destruct (Hlist bs ys FF) as (H1 & H2 & H3 & H4 & H5).
      rewrite (construct_ok si Hs) by auto. eexists; split; [reflexivity|].
      split; [apply krons_ok_comp; auto|]. rewrite !qubits_comp, !gates_comp. split; [exact H2|]. split; [exact H3|].
      split; [|apply scales_comp; exact H4]. intros rho. rewrite !den_comp. apply Hd. }
    destruct k.
    + (* chain *)
      destruct bs as [|x r]; [exfalso; apply Hce; reflexivity|].
      specialize (F s) as Fs; specialize (F None) as Fn.
      inversion Fs as [|? ? (y & Ey & Hy) _]; subst. inversion Fn as [|? ? _ Fr]; subst.
      destruct (osequence_map_ex _ _ _ Fr) as (ys & Eys & FY).
      cbn [scale_prims comp osequence obind]. rewrite Ey. cbn [obind]. rewrite Eys. cbn [obind].
      apply (Hdone (y :: ys)).
      * constructor; [exists s; exact Hy|]. clear -FY. induction FY; constructor; [eexists; eassumption|assumption].
      * intros rho. rewrite !dcomp_cons. cbn [opk].
        assert (E : dcomp rho KChain ys = dcomp rho KChain r).
        { clear -FY. induction FY as [|b y bs ys H FY IH]; [reflexivity|]. rewrite !dcomp_cons, IH. f_equal. apply H. }
        rewrite E. destruct Hy as (_ & _ & _ & Hd & _). rewrite Hd.
        destruct s as [e|]; simpl; [|reflexivity]. apply seqop_scale_l. apply (dchain_linear rho r).
    + (* kron *)
      destruct bs as [|x r]; [exfalso; apply (Hkr eq_refl); reflexivity|].
      specialize (F s) as Fs; specialize (F None) as Fn.
      inversion Fs as [|? ? (y & Ey & Hy) _]; subst. inversion Fn as [|? ? _ Fr]; subst.
      destruct (osequence_map_ex _ _ _ Fr) as (ys & Eys & FY).
      cbn [scale_prims comp osequence obind]. rewrite Ey. cbn [obind]. rewrite Eys. cbn [obind].
      apply (Hdone (y :: ys)).
      * constructor; [exists s; exact Hy|]. clear -FY. induction FY; constructor; [eexists; eassumption|assumption].
      * intros rho. rewrite !dcomp_cons. cbn [opk].
        assert (E : dcomp rho KKron ys = dcomp rho KKron r).
        { clear -FY. induction FY as [|b y bs ys H FY IH]; [reflexivity|]. rewrite !dcomp_cons, IH. f_equal. apply H. }
        rewrite E. destruct Hy as (_ & _ & _ & Hd & _). rewrite Hd.
        destruct s as [e|]; simpl; [|reflexivity]. apply seqop_scale_l. apply (dchain_linear rho r).
    + (* add *)
      specialize (F s). destruct (osequence_map_ex _ _ _ F) as (ys & Eys & FY).
      cbn [scale_prims comp]. rewrite Eys. cbn [omap obind].
      destruct (Hdone ys) as (y & Ey & Hy).
      * clear -FY. induction FY; constructor; [eexists; eassumption|assumption].
      * intros rho. clear -FY. induction FY as [|b y bs ys H FY IH].
        -- destruct s; simpl; [rewrite scaleop_zero|]; reflexivity.
        -- rewrite !dcomp_cons, IH. cbn [opk]. destruct H as (_ & _ & _ & Hd & _). rewrite Hd.
           destruct s; simpl; [rewrite scaleop_add|]; reflexivity.
      * simpl in Ey. injection Ey as <-. eexists; split; [reflexivity|exact Hy].
  - cbn [scale_prims].
    destruct (IH (Some (match s with None => e | Some s1 => EMul s1 e end)) Hok Hne) as (y & Ey & H1 & H2 & H3 & H4 & H5).
    exists y. split; [exact Ey|]. repeat split; auto. intros rho. rewrite H4. simpl.
    destruct s; simpl; [rewrite scaleop_scale|]; reflexivity.
  - rewrite scale_prims_other by assumption. destruct s as [e|].
    + eexists; split; [reflexivity|].
      split; [destruct b; simpl in *; try exact I; try discriminate; try tauto; destruct p; exact I|].
      split; [destruct b; simpl in *; try reflexivity; try discriminate; try tauto; destruct p; reflexivity|].
      split; [destruct b; simpl in *; try reflexivity; try discriminate; try tauto; destruct p; reflexivity|].
      split; [intros rho; apply C05_scale|].
      destruct b; simpl in *; try discriminate; try tauto; try (unfold is_composite; simpl; tauto).
      destruct p; simpl; unfold is_composite; simpl; tauto.
    + eexists; split; [reflexivity|]. repeat split; auto.
      destruct b; simpl in *; try exact I; try discriminate; tauto.
Qed.

(** scale_primitive_blocks_only succeeds, keeps the operator, the gates and the support, and leaves scale
    factors only directly around gates. *)
Theorem C07_scale_primitive_blocks_only : forall set_iter b, set_order set_iter -> krons_ok b -> no_empty_chain b ->
  exists y, scale_prims set_iter None b = Some y /\
    (forall rho, den rho y = den rho b) /\ gates y = gates b /\ qubits y = qubits b /\ scales_at_gates y.
Proof.
  intros si b Hs H1 H2. destruct (scale_prims_ok si Hs b None H1 H2) as (y & Ey & G1 & G2 & G3 & G4 & G5).
  exists y. auto.
Qed.

(** An explicit scalar argument multiplies the operator once. *)
Theorem C07_with_scale : forall set_iter b e, set_order set_iter -> krons_ok b -> no_empty_chain b ->
  exists y, scale_prims set_iter (Some e) b = Some y /\
    (forall rho, den rho y = scaleop (ev rho e) (den rho b)) /\ scales_at_gates y.
Proof.
  intros si b e Hs H1 H2. destruct (scale_prims_ok si Hs b (Some e) H1 H2) as (y & Ey & G1 & G2 & G3 & G4 & G5).
  exists y. auto.
Qed.

(** Finding: an empty chain swallows the factor. *)
Theorem C07_empty_chain_refuted : forall set_iter rho, exists b y,
  scale_prims set_iter None b = Some y /\ den rho y <> den rho b.
Proof.
  intros si rho. exists (BScale (BChain []) (ECst (RtoC 2))), (BChain []). split; [reflexivity|].
  simpl. intros E. pose proof (f_equal (fun A : Op => A (fun _ => RtoC 1) zeros) E) as F.
  unfold scaleop, idop in F. apply (f_equal fst) in F. simpl in F. lra.
Qed.

Example C07_witness : forall set_iter, set_order set_iter ->
  let b := BScale (BAdd [BChain [BPrim PX 0; BScale (BPrim PY 1) (EVar "a")]; BScale (BKron [BScale (BPrim PZ 0) (EVar "b"); BPrim PZ 1]) (EVar "c")]) (EVar "d") in
  krons_ok b /\ no_empty_chain b /\ ~ scales_at_gates b.
Proof.
  intros si Hs b. split; [|split].
  - simpl. repeat split; try discriminate; repeat constructor; simpl; intuition lia.
  - simpl. repeat split; discriminate.
  - simpl. intros (H & _). apply H. right; right. exact I.
Qed.

Print Assumptions C06_flatten.
Print Assumptions C06_witness.
Print Assumptions C07_scale_primitive_blocks_only.
Print Assumptions C07_with_scale.
Print Assumptions C07_empty_chain_refuted.
Print Assumptions C07_witness.
