(** C71: the JAX backend (horqrux) runs the block it is given. *)
From Coq Require Import String Reals List Arith Bool Lia Lra FunctionalExtensionality ZArith.
From Coquelicot Require Import Coquelicot.
From Coq Require Import List.
From Verif Require Import S_Sets S_Ops M_QubitSupport M_Block S_Den L_Ops L_Den L_Loc M_BlockOps L_Support M_Basis P_Basis P_Batch
  M_Tensor L_Tensor P_Tensor S_Transpile M_Transpile L_Transpile M_Fill M_Convert L_Convert P_Convert P_States P_Dagger P_Support P_Flatten M_Horqrux.
Import ListNotations.
Open Scope R_scope.
Open Scope C_scope.

(** * Which blocks are covered *)
(** Generators: sums, products and multiples of Pauli operators, number operators and projectors |s><s| on increasing qubits that
    are neighbours in the support. *)
Fixpoint j_ok (full : list nat) (b : block) : Prop :=
  match b with
  | BPrim p _ => match p with PI_ | PX | PY | PZ | PN _ => True | _ => False end
  | BProj kt br qs => kt = br /\ length kt = length qs /\ qs <> [] /\ sorted qs = qs /\ placed full qs
  | BScale b _ => j_ok full b
  | BChain bs | BKron bs | BAdd bs => fold_right (fun b k => j_ok full b /\ k) True bs
  | _ => False
  end.

Lemma fill_big M qs q0 : In q0 qs -> forall l p mat A, NoDup (p ++ l) -> (forall q, In q l -> ~ In q qs) ->
  rep p mat A -> rep (p ++ l) (fold_left (fill_step BIG M qs q0) l mat) A.
Proof. intros H l p mat A. exact (fill_ids BIG M qs q0 H l p mat A). Qed.
Lemma kron_big p s mat other A B : (forall q, In q p -> In q s -> False) -> rep p mat A -> rep s other B ->
  rep (p ++ s) (kron_end BIG mat other) (seqop B A).
Proof. exact (rep_kend BIG p s mat other A B). Qed.

Section Gen.
  Variables (full : list nat).
  Hypothesis (N : NoDup full) (Hne : full <> []).

  Lemma j_fill_rep M qs p l G : qs <> [] -> sorted qs = qs -> full = p ++ qs ++ l -> rep qs M G -> orep full (j_fill M qs full) G.
  Proof.
    intros Hq Es Hs HM. unfold j_fill. rewrite Es. pose proof N as NS. rewrite Hs in NS |- *.
    destruct qs as [|q0 s]; [congruence|].
    pose proof NS as NS'.
    apply NoDup_app_inv in NS' as (Np & Nsl & Hd1). apply NoDup_app_inv in Nsl as (Nq & Nl & Hd2).
    assert (Hskip : forall mat, fold_left (fill_step BIG M (q0 :: s) q0) s mat = mat).
    { intros mat. apply fill_skip. intros q Hq'. split; [right; exact Hq'|]. inversion Nq; subst. congruence. }
    destruct p as [|f0 p'].
    - cbn [app]. rewrite Nat.eqb_refl. eexists; split; [reflexivity|].
      rewrite fold_left_app, Hskip. change (q0 :: s ++ l) with ((q0 :: s) ++ l).
      apply fill_big; [left; reflexivity|exact NS| |exact HM].
      intros q Hq' Hin. eapply Hd2; eassumption.
    - cbn [app]. destruct (Nat.eqb_spec q0 f0) as [E|_].
      { exfalso. apply (Hd1 f0); [left; reflexivity|]. rewrite E. left; reflexivity. }
      eexists; split; [reflexivity|].
      rewrite fold_left_app. cbn [app fold_left]. rewrite fold_left_app, Hskip.
      change (f0 :: p' ++ q0 :: s ++ l) with (([f0] ++ p') ++ (q0 :: s) ++ l).
      rewrite app_assoc.
      apply fill_big; [left; reflexivity|rewrite <- app_assoc; exact NS| |].
      { intros q Hq' Hin. eapply Hd2; eassumption. }
      unfold fill_step at 1. rewrite Nat.eqb_refl.
      rewrite <- (seqop_id_r G).
      apply kron_big; [intros q H1 H2; apply (Hd1 q H1), in_or_app; left; exact H2| |exact HM].
      apply fill_big; [left; reflexivity|exact Np| |].
      + intros q Hq' Hin. apply (Hd1 q); [right; exact Hq'|apply in_or_app; left; exact Hin].
      + apply rep_id1.
  Qed.

  Lemma j_leaf q M (m : bool -> bool -> C) : In q full -> dim M = 2%nat -> (forall a b, ent M (b2n a) (b2n b) = m a b) ->
    orep full (j_fill M [q] full) (gate1 q m).
  Proof.
    intros Hq D H. destruct (in_split _ _ Hq) as (p & l & Hs).
    apply j_fill_rep with (p := p) (l := l); [discriminate|reflexivity|exact Hs|apply rep1; assumption].
  Qed.

  Lemma b2j_rep rho b : (forall q, In q (qubits b) -> In q full) -> j_ok full b -> orep full (b2j rho full b) (den rho b).
  Proof.
    assert (Fc : forall bs, fold_right (fun b k => seqop (den rho b) k) idop bs = fold_right seqop idop (map (den rho) bs)).
    { induction bs as [|x bs IH]; simpl; [reflexivity|]. rewrite IH. reflexivity. }
    assert (Fa : forall bs, fold_right (fun b k => addop (den rho b) k) zeroop bs = fold_right addop zeroop (map (den rho) bs)).
    { induction bs as [|x bs IH]; simpl; [reflexivity|]. rewrite IH. reflexivity. }
    assert (Hmap : forall bs, Forall (fun b => (forall q, In q (qubits b) -> In q full) -> j_ok full b -> orep full (b2j rho full b) (den rho b)) bs ->
       (forall q, In q (flat_map qubits bs) -> In q full) -> fold_right (fun b k => j_ok full b /\ k) True bs ->
       Forall2 (orep full) (map (b2j rho full) bs) (map (den rho) bs)).
    { induction 1 as [|x bs Hx _ IH]; intros Hs Hok; simpl; constructor; simpl in *.
      - apply Hx; [|apply Hok]. intros; apply Hs, in_or_app; auto.
      - apply IH; [|apply Hok]. intros; apply Hs, in_or_app; auto. }
    induction b as [p q|k br qs|r q ee|q a b c|a b|c a b|cs b IH|cs b IH|b ee IH|bs IH|bs IH|bs IH|m qs|g t IH]
      using block_ind'; intros Hs Hok; cbn [qubits j_ok b2j den] in *; try contradiction.
    - assert (Hq : In q full) by (apply Hs; left; reflexivity).
      destruct p as [| | | | | | | | | |[|]]; try contradiction; cbn [mat_dict obind];
        (apply j_leaf; [exact Hq|reflexivity|intros [] []; cbn; try reflexivity; apply Ceq; simpl; ring]).
    - destruct Hok as (<- & Hl & Hq & Es & (l1 & l2 & Hp)).
      apply j_fill_rep with (p := l1) (l := l2); auto.
      split; [simpl; rewrite Hl; reflexivity|]. apply gate_ext. intros r c Hr Hc.
      unfold nmat, proj_matrix, ketbra. cbn [ent].
      rewrite !eqb_bits by congruence. apply Cmult_comm.
    - destruct (IH Hs Hok) as (M & -> & HM). simpl. eexists; split; [reflexivity|]. apply rep_scale, HM.
    - rewrite Fc. apply chain_rep; [exact N|exact Hne|]. apply Hmap; assumption.
    - rewrite Fc. apply chain_rep; [exact N|exact Hne|]. apply Hmap; assumption.
    - rewrite Fa. apply add_rep; [exact N|exact Hne|]. apply Hmap; assumption.
  Qed.
End Gen.

(** block_to_jax: entry (r, c) of the matrix -- rows and columns numbered by bit strings over the qubits of the support in the given
    order -- is the amplitude of basis state r in the image of basis state c. *)
Theorem C71_generator : forall rho full b, NoDup full -> full <> [] -> (forall q, In q (qubits b) -> In q full) -> j_ok full b ->
  exists M, b2j rho full b = Some M /\ dim M = (2 ^ length full)%nat /\
    forall r c, length r = length full -> length c = length full ->
      ent M (bits_to_nat r) (bits_to_nat c) = matof full (den rho b) r c.
Proof.
  intros rho full b N Hne Hq Hok. destruct (b2j_rep full N Hne rho b Hq Hok) as (M & E & D & G).
  exists M. split; [exact E|]. split; [exact D|]. intros r c Hr Hc. rewrite <- G, matof_gate; [reflexivity|exact N|exact Hr|exact Hc].
Qed.

(** Any other gate in a generator is refused. *)
Fixpoint j_leaves (b : block) : Prop :=
  match b with
  | BPrim p _ => match p with PI_ | PX | PY | PZ | PN _ => True | _ => False end
  | BProj _ _ _ => True
  | BScale b _ => j_leaves b
  | BChain bs | BKron bs | BAdd bs => fold_right (fun b k => j_leaves b /\ k) True bs
  | _ => False
  end.
Lemma chain_none n ms : In None ms -> chain_t n ms = None.
Proof.
  unfold chain_t. generalize (Some (eye_n n)). induction ms as [|m ms IH]; intros acc H; [destruct H|]. cbn [fold_left]. destruct H as [->|H].
  - clear IH. destruct acc as [t|]; cbn [obind]; induction ms; cbn [fold_left obind]; auto.
  - apply IH, H.
Qed.
Lemma add_none n ms : In None ms -> add_t n ms = None.
Proof.
  unfold add_t. generalize (Some (zero_n n)). induction ms as [|m ms IH]; intros acc H; [destruct H|]. cbn [fold_left]. destruct H as [->|H].
  - clear IH. destruct acc as [t|]; cbn [obind]; induction ms; cbn [fold_left obind]; auto.
  - apply IH, H.
Qed.
Theorem C71_generator_refuses : forall rho full b M, b2j rho full b = Some M -> j_leaves b.
Proof.
  intros rho full b.
  assert (L : forall bs (t : list (option tensor) -> option tensor), (forall ms, In None ms -> t ms = None) ->
    Forall (fun b => forall M, b2j rho full b = Some M -> j_leaves b) bs -> forall M, t (map (b2j rho full) bs) = Some M ->
    fold_right (fun b k => j_leaves b /\ k) True bs).
  { intros bs t Ht F M E. apply all_forall. rewrite Forall_forall in *. intros x Hx. destruct (b2j rho full x) as [Mx|] eqn:Ex; [exact (F x Hx Mx Ex)|].
    rewrite Ht in E; [discriminate|]. rewrite <- Ex. apply in_map, Hx. }
  induction b as [p q|k br qs|r q ee|q a b c|a b|c a b|cs b IH|cs b IH|b ee IH|bs IH|bs IH|bs IH|m qs|g t IH]
    using block_ind'; intros M E; cbn [b2j j_leaves] in *; try discriminate; auto.
  - destruct p; cbn in E; try discriminate; exact I.
  - destruct (b2j rho full b) as [Mb|] eqn:Eb; [|discriminate]. eapply IH; reflexivity.
  - eapply (L bs (chain_t (length full))); [intros; apply chain_none; assumption|exact IH|exact E].
  - eapply (L bs (chain_t (length full))); [intros; apply chain_none; assumption|exact IH|exact E].
  - eapply (L bs (add_t (length full))); [intros; apply add_none; assumption|exact IH|exact E].
Qed.

(** * The conversion *)
(** Gates the backend has. *)
Definition hq_gate (set_iter : list nat -> list nat) (b : block) : Prop :=
  match b with
  | BPrim p _ => match p with PX | PY | PZ | PH | PI_ => True | _ => False end
  | BRot r _ _ => r <> RPhase
  | BSwap _ _ => True
  | BCtrl cs (BPrim PX _) => length cs = 1%nat
  | BCtrl cs (BPrim PZ _) => True
  | BPCtrl cs (BRot r _ _) => r <> RPhase
  | BEvo gen _ => NoDup (sup set_iter gen) /\ qubits gen <> [] /\ j_ok (sup set_iter gen) gen
  | _ => False
  end.

Lemma ctrl_nil U : ctrlop [] U = U. Proof. reflexivity. Qed.
Lemma swap_sym a b : swapop b a = swapop a b.
Proof.
  unfold swapop. extensionality psi. extensionality x. apply (f_equal psi). extensionality k. unfold upd.
  destruct (Nat.eqb_spec k a), (Nat.eqb_spec k b); try reflexivity. congruence.
Qed.
Lemma h_tc cs q : h_target cs (cs ++ [q]) = q /\ h_control cs (cs ++ [q]) = cs.
Proof.
  destruct cs as [|c [|c' cs]]; [split; reflexivity|split; reflexivity|].
  unfold h_target, h_control. rewrite last_last, removelast_last. split; reflexivity.
Qed.

Lemma j_ok_const full rho rho' b : j_ok full b -> bparams b = [] -> den rho b = den rho' b.
Proof.
  induction b as [p q|k br qs|r q ee|q a b c|a b|c a b|cs b IH|cs b IH|b ee IH|bs IH|bs IH|bs IH|m qs|g t IH]
    using block_ind'; intros Hok P; cbn [j_ok bparams den] in *; try contradiction; try reflexivity.
  - apply app_eq_nil in P as [P1 P2]. rewrite (IH Hok P2), (ev_const rho ee P1), (ev_const rho' ee P1). reflexivity.
  - induction IH as [|x bs Hx _ IHb]; [reflexivity|]. cbn [flat_map fold_right] in *. apply app_eq_nil in P as [P1 P2]. rewrite (Hx (proj1 Hok) P1), (IHb (proj2 Hok) P2). reflexivity.
  - induction IH as [|x bs Hx _ IHb]; [reflexivity|]. cbn [flat_map fold_right] in *. apply app_eq_nil in P as [P1 P2]. rewrite (Hx (proj1 Hok) P1), (IHb (proj2 Hok) P2). reflexivity.
  - induction IH as [|x bs Hx _ IHb]; [reflexivity|]. cbn [flat_map fold_right] in *. apply app_eq_nil in P as [P1 P2]. rewrite (Hx (proj1 Hok) P1), (IHb (proj2 Hok) P2). reflexivity.
Qed.

Section Conv.
  Variable si : list nat -> list nat.
  Hypothesis Hs : set_order si.
  Variable g : bool.

  Lemma hval_key rho e : hval g rho (g, e) = Some (ev rho e).
  Proof. unfold hval. cbn. rewrite eqb_reflx. reflexivity. Qed.
  Lemma hangle_key rho e : hangle g rho (g, e) = Some (ang rho e).
  Proof. unfold hangle. rewrite hval_key. reflexivity. Qed.

  Definition hgoes (b : block) : Prop := exists o, hconv si g b = Some o /\ forall rho, hden g rho o = Some (den rho b).

  Lemma hconv_list bs : Forall hgoes bs -> exists os, osequence (map (hconv si g) bs) = Some os /\
    forall rho, osequence (map (hden g rho) os) = Some (map (den rho) bs).
  Proof.
    induction 1 as [|b bs (o & E1 & E2) F (os & G1 & G2)]; [exists []; split; [reflexivity|reflexivity]|]. exists (o :: os). split.
    - cbn [map osequence]. rewrite E1, G1. reflexivity.
    - intros rho. cbn [map osequence]. rewrite E2, G2. reflexivity.
  Qed.

  Lemma evo_exp full gen t rho M : NoDup full -> (forall q, In q (qubits gen) -> In q full) -> rep full M (den rho gen) ->
    gate full (nmat (ent (t_exp (t_scale (- Ci * RtoC (ang rho t)) M)))) = den rho (BEvo gen t).
  Proof.
    intros N Hq HM. cbn [den]. cbv zeta. rewrite <- (gate_bexp_lift full (uqubits gen)).
    - apply (rep_exp full (- Ci * RtoC (ang rho t)) M (den rho gen) N HM).
    - exact N.
    - apply NoDup_nodup.
    - intros x Hx. apply Hq, in_uqubits, Hx.
    - eapply loc_mono; [|apply den_loc]. intros x Hx. apply in_uqubits. exact Hx.
  Qed.

  Lemma hconv_gate b : hq_gate si b -> hgoes b.
  Proof.
    destruct b as [p q|k br qs|r q e|q a b c|a b|c a b|cs b|cs b|b e|bs|bs|bs|m qs|gen t]; cbn [hq_gate]; intros H; try contradiction.
    - destruct p; try contradiction; (eexists; split; [reflexivity|intros rho; reflexivity]).
    - destruct r; try congruence; (eexists; split; [reflexivity|intros rho; cbn [hden]; rewrite hangle_key; reflexivity]).
    - exists (HSwap b a). split; [reflexivity|]. intros rho. cbn [hden den]. rewrite swap_sym. reflexivity.
    - destruct b as [p q| | | | | | | | | | | | | ]; try contradiction.
      assert (S : sup si (BCtrl cs (BPrim p q)) = cs ++ [q]) by reflexivity. destruct (h_tc cs q) as [T1 T2].
      destruct p; try contradiction.
      + destruct cs as [|c [|? ?]]; try discriminate H. eexists. split; [reflexivity|]. intros rho. reflexivity.
      + exists (HGate PZ q cs). split; [|intros rho; reflexivity].
        transitivity (Some (HGate PZ (h_target cs (sup si (BCtrl cs (BPrim PZ q)))) (h_control cs (sup si (BCtrl cs (BPrim PZ q)))))); [destruct cs as [|? [|? ?]]; reflexivity|].
        rewrite S, T1, T2. reflexivity.
    - destruct b as [ | |r q e| | | | | | | | | | | ]; try contradiction.
      assert (S : sup si (BPCtrl cs (BRot r q e)) = cs ++ [q]) by reflexivity. destruct (h_tc cs q) as [T1 T2].
      exists (HRot r (g, e) q cs). split.
      + transitivity (Some (HRot r (g, e) (h_target cs (sup si (BPCtrl cs (BRot r q e)))) (h_control cs (sup si (BPCtrl cs (BRot r q e)))))); [destruct r; try congruence; reflexivity|].
        rewrite S, T1, T2. reflexivity.
      + intros rho. cbn [hden den]. rewrite hangle_key. reflexivity.
    - destruct H as (N & Hq & J). set (full := sup si gen) in *.
      assert (Hin : forall q, In q (qubits gen) -> In q full) by (intros q Hq'; apply (in_bsup si Hs gen q), Hq').
      assert (Hne : full <> []).
      { intros E. apply Hq. destruct (qubits gen) as [|q l]; [reflexivity|]. specialize (Hin q (or_introl eq_refl)). rewrite E in Hin. destruct Hin. }
      unfold hgoes. cbn [hconv]. unfold h_evolution. change (sup si (BEvo gen t)) with full. destruct (is_parametric gen) eqn:P.
      + eexists. split; [reflexivity|]. intros rho. cbn [hden]. destruct (b2j_rep full N Hne rho gen Hin J) as (M & -> & HM). cbn [obind].
        rewrite hangle_key. unfold omap. cbn [obind]. f_equal. apply evo_exp; assumption.
      + apply parametric_nil in P. destruct (b2j_rep full N Hne (fun _ => 0%R) gen Hin J) as (M & -> & HM). cbn [obind].
        eexists. split; [reflexivity|]. intros rho. cbn [hden obind]. rewrite hangle_key. unfold omap. cbn [obind]. f_equal. apply evo_exp; [exact N|exact Hin|].
        rewrite (j_ok_const full rho (fun _ => 0%R) gen J P). exact HM.
  Qed.

  Lemma hconv_ok b : (forall x, In x (gates b) -> hq_gate si x) -> hgoes b.
  Proof.
    induction b as [k bs IH|b e IH|b Hk Hsc] using skel_ind; intros H.
    - rewrite gates_comp in H. assert (F : Forall hgoes bs).
      { rewrite Forall_forall in *. intros x Hx. apply (IH x Hx). intros y Hy. apply H. apply in_flat_map. eauto. }
      destruct (hconv_list bs F) as (os & E1 & E2). unfold hgoes.
      destruct k; cbn [comp hconv]; rewrite E1; unfold omap; cbn [obind]; eexists; (split; [reflexivity|]); intros rho; cbn [hden]; rewrite E2; unfold omap; cbn [obind den];
        rewrite ?fold_seq, ?fold_add; reflexivity.
    - cbn [gates] in H. destruct (IH H) as (o & E1 & E2). exists (HScale o (g, e)). cbn [hconv]. rewrite E1. split; [reflexivity|].
      intros rho. cbn [hden]. rewrite E2. cbn [obind]. rewrite hval_key. reflexivity.
    - apply hconv_gate, H. destruct b; simpl in *; try discriminate; try tauto; left; reflexivity.
  Qed.
End Conv.

(** Backend.circuit: the passes and the conversion succeed and the program denotes the operator of the block, for every value of the
    parameters; it reads them under the kind of name the configuration asks for. *)
Theorem C71_circuit : forall set_iter gate_params b, set_order set_iter -> krons_ok b -> no_empty_chain b ->
  (forall x, In x (gates b) -> hq_gate set_iter x) ->
  exists op, hq_circuit set_iter gate_params b = Some op /\ forall rho, hden gate_params rho op = Some (den rho b).
Proof.
  intros si g b Hs K NE HG.
  destruct (scale_prims_ok si Hs b None K NE) as (y & Ey & K1 & _ & G1 & D1 & _).
  destruct (C06_flatten si [KChain; KKron; KAdd] y Hs K1) as (z & Ez & D2 & G2 & _ & K2 & _).
  unfold hq_circuit, h_passes. rewrite Ey. cbn [obind]. rewrite Ez. cbn [obind]. rewrite (rebuild_id si Hs z K2). cbn [obind].
  destruct (hconv_ok si Hs g z) as (o & E & D); [rewrite G2, G1; exact HG|]. exists o. split; [exact E|].
  intros rho. rewrite D, D2, D1. reflexivity.
Qed.

(** Backend.observable *)
Theorem C71_observable : forall set_iter gate_params b, set_order set_iter -> krons_ok b -> no_empty_chain b ->
  (forall x, In x (gates b) -> hq_gate set_iter x) ->
  exists op, hq_observable set_iter gate_params b = Some op /\ forall rho, hden gate_params rho op = Some (den rho b).
Proof.
  intros si g b Hs K NE HG.
  destruct (scale_prims_ok si Hs b None K NE) as (y & Ey & K1 & _ & G1 & D1 & _).
  destruct (C06_flatten si [KChain; KKron; KAdd] y Hs K1) as (z & Ez & D2 & G2 & _ & K2 & _).
  unfold hq_observable. rewrite Ey. cbn [obind]. rewrite Ez. cbn [obind].
  destruct (hconv_ok si Hs g z) as (o & E & D); [rewrite G2, G1; exact HG|]. exists o. split; [exact E|].
  intros rho. rewrite D, D2, D1. reflexivity.
Qed.
