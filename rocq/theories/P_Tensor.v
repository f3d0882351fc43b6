(** C03: block_to_tensor computes the textbook operator. *)
From Coq Require Import String Reals List Arith Bool Lia Lra FunctionalExtensionality Permutation Sorted.
From Coquelicot Require Import Coquelicot.
From Coq Require Import List.
From Verif Require Import S_Sets S_Ops M_QubitSupport M_Block S_Den L_Ops L_Den L_Loc L_Adj M_BlockOps L_Support M_Tensor L_Tensor P_Dagger P_Support.
Import ListNotations.
Open Scope R_scope.
Open Scope C_scope.

(** * Which blocks are covered: [order] is the order in which qubits index the rows of the matrix.
    Multi-qubit leaf matrices must sit on qubits that are consecutive in that order (refuted otherwise). *)
Definition placed (order qs : list nat) : Prop := exists l1 l2, order = l1 ++ qs ++ l2.

Fixpoint t_ok (order : list nat) (b : block) : Prop :=
  match b with
  | BPrim p _ => p <> PTdg /\ p <> PN false
  | BProj kt br qs => kt = br /\ length kt = length qs /\ qs <> [] /\ placed order qs
  | BRot _ _ _ | BU _ _ _ _ => True
  | BSwap a b => a <> b
  | BCSwap c a b => c <> a /\ c <> b /\ a <> b
  | BCtrl cs b | BPCtrl cs b => cs <> [] /\ NoDup cs /\ (exists t, qubits b = [t] /\ ~ In t cs) /\ t_ok order b
  | BScale b _ => t_ok order b
  | BChain bs | BKron bs | BAdd bs => fold_right (fun b k => t_ok order b /\ k) True bs
  | BMat _ qs => qs <> [] /\ placed order qs
  | BEvo g _ => qubits g <> [] /\ t_ok order g
  end.

(** ** One-qubit matrices *)
Lemma rep1 q M (m : bool -> bool -> C) : dim M = 2%nat ->
  (forall a b, ent M (b2n a) (b2n b) = m a b) -> rep [q] M (gate1 q m).
Proof.
  intros D H. split; [exact D|]. apply gate_ext.
  intros [|a [|a1 a2]] [|b [|b1 b2]]; intros; try discriminate.
  unfold nmat. simpl bits_to_nat. rewrite !Nat.mul_1_r, !Nat.add_0_r. apply H.
Qed.

Lemma rot_rep q r t : rep [q] (match r with RX_ => rot_matrices t XMAT | RY_ => rot_matrices t YMAT
                               | RZ_ => rot_matrices t ZMAT | RPhase => phase_matrix t end) (gate1 q (rot_mat r t)).
Proof.
  apply rep1; [destruct r; reflexivity|].
  destruct r; intros [] []; simpl; unfold cis; apply Ceq; simpl; rewrite ?cos_neg, ?sin_neg; try ring; lra.
Qed.

(** ** Controlled gates *)
Definition projop (cs : list nat) : Op := fun psi x => if forallb x cs then psi x else RtoC 0.

Lemma proj1_rep c : rep [c] (proj_matrix [true] [true]) (projop [c]).
Proof.
  split; [reflexivity|]. unfold gate, projop. extensionality psi. extensionality x. simpl.
  unfold nmat. simpl. destruct (x c) eqn:E; simpl.
  - replace (upd x c true) with x by (rewrite <- E; symmetry; apply upd_id). ring.
  - ring.
Qed.

Lemma projop_chain cs : fold_right seqop idop (map (fun c => projop [c]) cs) = projop cs.
Proof.
  induction cs as [|c cs IH]; simpl; [reflexivity|]. rewrite IH.
  unfold seqop, projop. extensionality psi. extensionality x. simpl.
  destruct (x c), (forallb x cs); reflexivity.
Qed.

Lemma ctrl_formula cs t U : loc (fun q => q = t) U -> ~ In t cs ->
  addop (seqop (addop idop (scaleop (- (1)) (projop cs))) idop) (seqop (projop cs) U) = ctrlop cs U.
Proof.
  intros HU Ht. extensionality psi. extensionality x.
  unfold addop, seqop, scaleop, idop, projop, ctrlop.
  pose proof (loc_mix _ U cs psi (fun _ => RtoC 0) HU) as E.
  rewrite E by (intros q H1 ->; contradiction).
  assert (Z : U (fun _ => RtoC 0) = fun _ => RtoC 0).
  { destruct (loc_linear _ _ HU) as [_ L]. specialize (L 0 psi).
    replace (fun x0 : asg => 0 * psi x0) with (fun _ : asg => RtoC 0) in L by (extensionality y; ring).
    rewrite L. extensionality y. ring. }
  rewrite Z. destruct (forallb x cs); ring.
Qed.

Section Main.
  Variables (e : endian) (si : list nat -> list nat) (Hsi : set_order si) (rho : env) (full : list nat).
  Hypothesis (N : NoDup full) (Hne : full <> []).
  Let fs := ord e (sorted full).

  Lemma fs_nodup : NoDup fs. Proof. apply ord_nodup, sorted_nodup, N. Qed.
  Lemma fs_len : length fs = length full. Proof. unfold fs. rewrite ord_length, sorted_length. reflexivity. Qed.
  Lemma fs_ne : fs <> [].
  Proof. intros H. apply Hne. apply length_zero_iff_nil. rewrite <- fs_len, H. reflexivity. Qed.
  Lemma in_fs q : In q fs <-> In q full.
  Proof. unfold fs. rewrite in_ord. apply in_sorted. Qed.

  Lemma chain_full ms As : Forall2 (orep fs) ms As -> orep fs (chain_t (length full) ms) (fold_right seqop idop As).
  Proof. rewrite <- fs_len. apply chain_rep; [apply fs_nodup|apply fs_ne]. Qed.
  Lemma add_full ms As : Forall2 (orep fs) ms As -> orep fs (add_t (length full) ms) (fold_right addop zeroop As).
  Proof. rewrite <- fs_len. apply add_rep; [apply fs_nodup|apply fs_ne]. Qed.

  Lemma leaf1 q M A : In q full -> rep [q] M A -> orep fs (leaf e full (Some M) [q]) A.
  Proof. intros. apply fill_rep1; assumption. Qed.

  Lemma p1_rep cs : (forall q, In q cs -> In q full) -> orep fs (p1_t e full cs) (projop cs).
  Proof.
    intros H. rewrite <- projop_chain. apply chain_full.
    induction cs as [|c cs IH]; simpl; constructor.
    - apply leaf1; [apply H; left; reflexivity|apply proj1_rep].
    - apply IH. intros; apply H; right; assumption.
  Qed.

  Lemma nodupb_true l : NoDup l -> nodupb l = true.
  Proof. intros H. unfold nodupb. rewrite nodup_fixed_point by exact H. rewrite Nat.eqb_refl. reflexivity. Qed.

  Lemma ctrl_rep cs t u U : cs <> [] -> NoDup cs -> ~ In t cs -> (forall q, In q (cs ++ [t]) -> In q full) ->
    loc (fun q => q = t) U -> orep fs u U -> orep fs (ctrl_t e full cs t u) (ctrlop cs U).
  Proof.
    intros Hc Nc Ht Hin HU Hu. unfold ctrl_t. destruct cs as [|c0 cs']; [congruence|].
    set (cs := c0 :: cs') in *.
    rewrite nodupb_true.
    2:{ apply NoDup_app_intro; [exact Nc|repeat constructor; simpl; tauto|]. simpl. intros x Hx [<-|[]]. contradiction. }
    assert (Hcs : forall q, In q cs -> In q full) by (intros; apply Hin, in_or_app; auto).
    assert (Hp1 : orep fs (p1_t e full cs) (projop cs)) by (apply p1_rep; exact Hcs).
    rewrite <- (ctrl_formula cs t U HU Ht).
    match goal with |- orep _ _ (addop ?A ?B) => rewrite <- (addop_zero_r (addop A B)), addop_assoc; change (addop A (addop B zeroop)) with (fold_right addop zeroop [A; B]) end.
    apply add_full. constructor; [|constructor; [|constructor]].
    - match goal with |- orep _ _ (seqop ?A idop) => change (seqop A idop) with (fold_right seqop idop [A; idop]) end.
      apply chain_full. constructor; [|constructor; [|constructor]].
      + match goal with |- orep _ _ (addop ?A ?B) => rewrite <- (addop_zero_r (addop A B)), addop_assoc; change (addop A (addop B zeroop)) with (fold_right addop zeroop [A; B]) end.
        apply add_full. constructor; [|constructor; [|constructor]].
        * apply leaf1; [apply Hcs; left; reflexivity|apply rep_id1].
        * destruct Hp1 as (P & -> & HP). simpl. eexists; split; [reflexivity|apply rep_scale, HP].
      + apply leaf1; [apply Hin, in_or_app; right; left; reflexivity|apply rep_id1].
    - change (seqop (projop cs) U) with (fold_right seqop idop [projop cs; U]).
      apply chain_full. constructor; [exact Hp1|constructor; [exact Hu|constructor]].
  Qed.

  Lemma X_rep q : rep [q] XMAT (gate1 q (prim_mat PX)).
  Proof. apply rep1; [reflexivity|]. intros [] []; reflexivity. Qed.

  Lemma cx_rep cs t : cs <> [] -> NoDup cs -> ~ In t cs -> (forall q, In q (cs ++ [t]) -> In q full) ->
    orep fs (cx_t e full cs t) (ctrlop cs (gate1 t (prim_mat PX))).
  Proof.
    intros. apply ctrl_rep; try assumption.
    - apply loc_gate. simpl. intros q [<-|[]]; reflexivity.
    - apply leaf1; [|apply X_rep]. auto using in_or_app, in_eq.
  Qed.

  Definition flip (cs : list nat) (t : nat) (x : asg) : asg :=
    if forallb x cs then upd x t (negb (x t)) else x.
  Lemma cx_flip cs t psi : ctrlop cs (gate1 t (prim_mat PX)) psi = fun x => psi (flip cs t x).
  Proof.
    extensionality x. unfold ctrlop, flip. destruct (forallb x cs); [|reflexivity].
    unfold gate1, gate. simpl. destruct (x t); simpl; ring.
  Qed.

  Lemma three_cx c a b : ~ In a c -> ~ In b c -> a <> b ->
    fold_right seqop idop [ctrlop (c ++ [b]) (gate1 a (prim_mat PX)); ctrlop (c ++ [a]) (gate1 b (prim_mat PX)); ctrlop (c ++ [b]) (gate1 a (prim_mat PX))]
    = ctrlop c (swapop a b).
  Proof.
    intros Ha Hb Hab. simpl. unfold seqop, idop. extensionality psi. extensionality x.
    rewrite !cx_flip. unfold ctrlop, swapop.
    assert (K : flip (c ++ [b]) a (flip (c ++ [a]) b (flip (c ++ [b]) a x)) =
                if forallb x c then upd (upd x a (x b)) b (x a) else x).
    { assert (Fb : forall y (z : asg), (forall q, In q c -> y q = z q) -> forallb y c = forallb z c).
      { clear. intros y z. induction c as [|q l IH]; simpl; intros E; [reflexivity|]. rewrite E, IH; auto. }
      assert (Hua : forall y v, forallb (upd y a v) c = forallb y c).
      { intros y v. apply Fb. intros q Hq. apply upd_other. intros ->. contradiction. }
      assert (Hub : forall y v, forallb (upd y b v) c = forallb y c).
      { intros y v. apply Fb. intros q Hq. apply upd_other. intros ->. contradiction. }
      assert (Hba : b <> a) by congruence.
      unfold flip. rewrite !forallb_app. simpl. rewrite !andb_true_r.
      destruct (forallb x c) eqn:Ec; simpl; [|rewrite Ec; simpl; rewrite Ec; reflexivity].
      destruct (x b) eqn:Eb, (x a) eqn:Ea; simpl;
        repeat (rewrite ?Hua, ?Hub, ?Ec, ?Ea, ?Eb, ?upd_same, ?(upd_other _ a _ b), ?(upd_other _ b _ a) by congruence; simpl);
        extensionality q; unfold upd;
        destruct (Nat.eqb_spec q a) as [Q1|Q1], (Nat.eqb_spec q b) as [Q2|Q2]; subst; try congruence; try reflexivity. }
    rewrite K. destruct (forallb x c); reflexivity.
  Qed.

  Lemma locals_single : forall b t, qubits b = [t] -> locals (bsup si b) = [t].
  Proof.
    assert (Hcomp : forall bs b t, (b = BChain bs \/ b = BKron bs \/ b = BAdd bs) -> qubits b = [t] -> locals (bsup si b) = [t]).
    { intros bs b t Hb Hq. destruct (bsup_spec si Hsi b) as (l & El & Hl & Nl). rewrite El. simpl.
      assert (NoDup l) by (destruct Hb as [->|[->| ->]]; exact Nl).
      rewrite Hq in Hl. destruct l as [|a [|a' l]].
      - exfalso. apply (proj2 (Hl t)). left; reflexivity.
      - f_equal. destruct (proj1 (Hl a) (or_introl eq_refl)) as [<-|[]]. reflexivity.
      - exfalso. destruct (proj1 (Hl a) (or_introl eq_refl)) as [<-|[]].
        destruct (proj1 (Hl a') (or_intror (or_introl eq_refl))) as [<-|[]].
        inversion H; subst. apply H2. left; reflexivity. }
    assert (Hctrl : forall cs b, (forall t, qubits b = [t] -> locals (bsup si b) = [t]) ->
       forall t, cs ++ qubits b = [t] -> cs ++ locals (bsup si b) = [t]).
    { intros cs b IH t H. destruct cs as [|c cs]; [apply IH; exact H|].
      injection H as -> H. apply app_eq_nil in H as [-> H]. simpl. f_equal.
      destruct (bsup_spec si Hsi b) as (l & El & Hl & _). rewrite El. simpl.
      rewrite H in Hl. destruct l as [|a l]; [reflexivity|]. exfalso. apply (proj1 (Hl a)). left; reflexivity. }
    induction b as [p q|k br qs|r q ee|q a b c|a b|c a b|cs b IH|cs b IH|b ee IH|bs IH|bs IH|bs IH|m qs|g tt IH]
      using block_ind'; intros t0 H; try (simpl in *; congruence).
    - simpl in *. apply Hctrl; assumption.
    - simpl in *. apply Hctrl; assumption.
    - simpl in *. apply IH; assumption.
    - apply (Hcomp bs); auto.
    - apply (Hcomp bs); auto.
    - apply (Hcomp bs); auto.
    - simpl in *. apply IH; assumption.
  Qed.

  Lemma b2t_rep : forall b, (forall q, In q (qubits b) -> In q full) -> t_ok fs b ->
    orep fs (b2t e rho full si b) (den rho b).
  Proof.
    assert (Hmap : forall bs, Forall (fun b => (forall q, In q (qubits b) -> In q full) -> t_ok fs b -> orep fs (b2t e rho full si b) (den rho b)) bs ->
       (forall q, In q (flat_map qubits bs) -> In q full) -> fold_right (fun b k => t_ok fs b /\ k) True bs ->
       Forall2 (orep fs) (map (b2t e rho full si) bs) (map (den rho) bs)).
    { induction 1 as [|x bs Hx _ IH]; intros Hs Hok; simpl; constructor; simpl in *.
      - apply Hx; [|apply Hok]. intros; apply Hs, in_or_app; auto.
      - apply IH; [|apply Hok]. intros; apply Hs, in_or_app; auto. }
    assert (Fc : forall bs, fold_right (fun b k => seqop (den rho b) k) idop bs = fold_right seqop idop (map (den rho) bs)).
    { induction bs as [|x bs IH]; simpl; [reflexivity|]. rewrite IH. reflexivity. }
    assert (Fa : forall bs, fold_right (fun b k => addop (den rho b) k) zeroop bs = fold_right addop zeroop (map (den rho) bs)).
    { induction bs as [|x bs IH]; simpl; [reflexivity|]. rewrite IH. reflexivity. }
    assert (Hctrl : forall cs b, ((forall q, In q (qubits b) -> In q full) -> t_ok fs b -> orep fs (b2t e rho full si b) (den rho b)) ->
      (forall q, In q (cs ++ qubits b) -> In q full) ->
      cs <> [] /\ NoDup cs /\ (exists t, qubits b = [t] /\ ~ In t cs) /\ t_ok fs b ->
      orep fs (match single_target (locals (bsup si b)) with Some t => ctrl_t e full cs t (b2t e rho full si b) | None => None end)
        (ctrlop cs (den rho b))).
    { intros cs b IH Hs (Hc & Nc & (t & Et & Ht) & Hok). rewrite (locals_single b t Et). simpl.
      apply ctrl_rep; auto.
      - rewrite <- Et. exact Hs.
      - eapply loc_mono; [|apply (den_loc rho b)]. simpl. intros q Hq. rewrite Et in Hq. simpl in Hq. intuition congruence.
      - apply IH; [|exact Hok]. intros; apply Hs, in_or_app; auto. }
    induction b as [p q|k br qs|r q ee|q a b c|a b|c a b|cs b IH|cs b IH|b ee IH|bs IH|bs IH|bs IH|m qs|g t IH]
      using block_ind'; intros Hs Hok; cbn [qubits t_ok b2t den] in *.
    - destruct Hok as [Hp1 Hp2]. assert (Hq : In q full) by (apply Hs; left; reflexivity).
      destruct p as [| | | | | | | | | | st]; try congruence; try (apply leaf1; [exact Hq|apply rep1; [reflexivity|intros [] []; reflexivity]]).
      destruct st; [|congruence]. apply leaf1; [exact Hq|]. apply rep1; [reflexivity|]. intros [] []; reflexivity.
    - destruct Hok as (<- & Hl & Hq & (l1 & l2 & Hp)).
      apply fill_rep_many with (p := l1) (l := l2); auto.
      split; [simpl; rewrite Hl; reflexivity|]. apply gate_ext. intros r c Hr Hc.
      unfold nmat, proj_matrix, ketbra. cbn [ent].
      rewrite !eqb_bits by congruence. apply Cmult_comm.
    - assert (Hq : In q full) by (apply Hs; left; reflexivity).
      destruct r; (apply leaf1; [exact Hq|]);
        [apply (rot_rep q RX_)|apply (rot_rep q RY_)|apply (rot_rep q RZ_)|apply (rot_rep q RPhase)].
    - assert (Hq : In q full) by (apply Hs; left; reflexivity).
      unfold leaf, u_matrix.
      assert (N1 : NoDup [q]) by (repeat constructor; simpl; tauto).
      destruct (rep_mul [q] _ _ _ _ N1 (rot_rep q RY_ (ang rho b)) (rot_rep q RZ_ (ang rho a))) as (M1 & E1 & R1).
      cbv beta iota in E1. rewrite E1.
      destruct (rep_mul [q] _ _ _ _ N1 (rot_rep q RZ_ (ang rho c)) R1) as (M2 & E2 & R2).
      cbv beta iota in E2. rewrite E2. cbn [obind]. rewrite <- seqop_assoc. apply leaf1; assumption.
    - assert (Ha : In a full) by (apply Hs; left; reflexivity).
      assert (Hb : In b full) by (apply Hs; right; left; reflexivity).
      assert (Es : swapop a b = ctrlop [] (swapop b a)).
      { unfold ctrlop, swapop. extensionality psi. extensionality x. simpl. rewrite upd_comm by congruence. reflexivity. }
      rewrite Es, <- three_cx by (simpl; tauto || congruence). cbn [app].
      apply chain_full.
      repeat constructor; apply cx_rep; try discriminate; try (repeat constructor; simpl; tauto);
        try (simpl; intuition congruence); simpl; intros q [<-|[<-|[]]]; assumption.
    - destruct Hok as (H1 & H2 & H3).
      assert (Hc : In c full) by (apply Hs; simpl; auto).
      assert (Ha : In a full) by (apply Hs; simpl; auto).
      assert (Hb : In b full) by (apply Hs; simpl; auto).
      rewrite <- three_cx by (simpl; intuition congruence). cbn [app].
      apply chain_full.
      repeat constructor; apply cx_rep; try discriminate; try (repeat constructor; simpl; intuition congruence);
        try (simpl; intuition congruence); simpl; intros q [<-|[<-|[<-|[]]]]; assumption.
    - apply Hctrl; assumption.
    - apply Hctrl; assumption.
    - destruct (IH Hs Hok) as (M & -> & HM). simpl. eexists; split; [reflexivity|]. apply rep_scale, HM.
    - rewrite Fc. apply chain_full. apply Hmap; assumption.
    - rewrite Fc. apply chain_full. apply Hmap; assumption.
    - rewrite Fa. apply add_full. apply Hmap; assumption.
    - destruct Hok as (Hq & (l1 & l2 & Hp)). apply fill_rep_many with (p := l1) (l := l2); auto.
      split; reflexivity.
    - destruct Hok as (Hq & Hok). destruct (IH Hs Hok) as (M & EM & HM).
      destruct (locals (bsup si g)) as [|a l] eqn:El.
      { exfalso. apply Hq. destruct (bsup_spec si Hsi g) as (l & E & Hl & _). rewrite E in El. simpl in El. subst l.
        destruct (qubits g) as [|a l]; [reflexivity|]. exfalso. apply (proj2 (Hl a)). left; reflexivity. }
      rewrite EM. simpl. eexists; split; [reflexivity|].
      rewrite <- (gate_bexp_lift fs (uqubits g)).
      + apply rep_exp; [apply fs_nodup|exact HM].
      + apply fs_nodup.
      + apply NoDup_nodup.
      + intros x Hx. apply in_fs, Hs. apply in_uqubits. exact Hx.
      + eapply loc_mono; [|apply den_loc]. intros x Hx. apply in_uqubits. exact Hx.
  Qed.
End Main.

(** The conversion with an explicit [qubit_support] [full]: it succeeds, has size 2^n, and entry (r, c) -- rows
    and columns numbered by bit strings over the sorted qubits (reversed for little endian) -- is the amplitude
    of basis state r in the image of basis state c. *)
Theorem C03_entries : forall e set_iter rho full fs b,
  set_order set_iter -> NoDup full -> full <> [] ->
  StronglySorted le fs -> Permutation fs full ->
  (forall q, In q (qubits b) -> In q full) -> t_ok (match e with BIG => fs | LITTLE => rev fs end) b ->
  exists M, b2t e rho full set_iter b = Some M /\ dim M = (2 ^ length full)%nat /\
    forall r c, length r = length full -> length c = length full ->
      ent M (bits_to_nat r) (bits_to_nat c) =
      matof (match e with BIG => fs | LITTLE => rev fs end) (den rho b) r c.
Proof.
  intros e si rho full fs b Hsi N Hne Hs Hp Hq Hok.
  assert (E : fs = sorted full).
  { apply ss_unique; [exact Hs|apply sorted_ss|]. eapply perm_trans; [exact Hp|symmetry; apply sorted_perm]. }
  subst fs.
  destruct (b2t_rep e si Hsi rho full N Hne b Hq Hok) as (M & E & D & G).
  exists M. split; [exact E|]. rewrite ord_length, sorted_length in D. split; [exact D|].
  intros r c Hr Hc. change (match e with BIG => sorted full | LITTLE => rev (sorted full) end) with (ord e (sorted full)).
  rewrite <- G, matof_gate; [reflexivity| | |].
  - apply ord_nodup, sorted_nodup, N.
  - rewrite ord_length, sorted_length; exact Hr.
  - rewrite ord_length, sorted_length; exact Hc.
Qed.

(** block_to_tensor(block) of a composite block, big endian, on range(n_qubits): qubit 0 is the most significant
    bit of the row and column numbers. *)
Theorem C03_block_to_tensor : forall set_iter rho b bs,
  set_order set_iter -> (b = BChain bs \/ b = BKron bs \/ b = BAdd bs) -> qubits b <> [] ->
  let n := nqubits set_iter b in
  t_ok (seq 0 n) b ->
  exists M, block_to_tensor BIG set_iter true rho b = Some M /\ dim M = (2 ^ n)%nat /\
    forall r c, length r = n -> length c = n ->
      ent M (bits_to_nat r) (bits_to_nat c) = matof (seq 0 n) (den rho b) r c.
Proof.
  intros si rho b bs Hsi Hb Hq n Hok.
  destruct (C02_nqubits_composite si Hsi b bs Hb) as (H1 & H2 & _).
  destruct (H2 Hq) as (q & Hin & En). fold n in H1, En.
  assert (SS : forall m k, StronglySorted le (seq k m)).
  { induction m as [|m IH]; intros k; simpl; constructor; [apply IH|].
    apply Forall_forall. intros x Hx. apply in_seq in Hx. lia. }
  destruct (C03_entries BIG si rho (seq 0 n) (seq 0 n) b) as (M & E & D & G); auto.
  - apply seq_NoDup.
  - rewrite En. discriminate.
  - intros x Hx. apply in_seq. specialize (H1 x Hx). lia.
  - rewrite seq_length in D, G. exists M. auto.
Qed.

(** use_full_support=False: the matrix acts on the sorted support only. *)
Theorem C03_block_to_tensor_support : forall set_iter rho b bs fs,
  set_order set_iter -> (b = BChain bs \/ b = BKron bs \/ b = BAdd bs) -> qubits b <> [] ->
  StronglySorted lt fs -> (forall q, In q fs <-> In q (qubits b)) ->
  t_ok fs b ->
  exists M, block_to_tensor BIG set_iter false rho b = Some M /\ dim M = (2 ^ length fs)%nat /\
    forall r c, length r = length fs -> length c = length fs ->
      ent M (bits_to_nat r) (bits_to_nat c) = matof fs (den rho b) r c.
Proof.
  intros si rho b bs fs Hsi Hb Hq Hs Hf Hok.
  destruct (bsup_spec si Hsi b) as (l & El & Hl & Nl).
  assert (N : NoDup l) by (destruct Hb as [->|[->| ->]]; exact Nl).
  assert (SL : StronglySorted le fs).
  { clear -Hs. induction Hs; constructor; auto. eapply Forall_impl; [|eassumption]. simpl; intros; lia. }
  assert (NF : NoDup fs).
  { clear -Hs. induction Hs as [|a l S IH F]; constructor; auto. intros Ha. rewrite Forall_forall in F. apply F in Ha. lia. }
  assert (P : Permutation fs l) by (apply NoDup_Permutation; [assumption..|]; intros; rewrite Hf, Hl; reflexivity).
  unfold block_to_tensor. rewrite El. cbn [locals].
  rewrite (Permutation_length P).
  apply (C03_entries BIG si rho l fs b); auto.
  - intros ->. destruct (qubits b) as [|q r]; [congruence|]. apply (proj2 (Hl q)). left; reflexivity.
  - intros q Hin. apply Hl, Hin.
Qed.

(** * Findings: where the conversion is not the textbook operator. *)
Definition tensor_differs (set_iter : list nat -> list nat) (rho : env) (fs : list nat) (b : block) : Prop :=
  exists M r c, b2t BIG rho fs set_iter b = Some M /\ length r = length fs /\ length c = length fs /\
    ent M (bits_to_nat r) (bits_to_nat c) <> matof fs (den rho b) r c.

Theorem C03_block_to_tensor_refuted : forall set_iter rho,
  (* Projector(ket="0", bra="1") is transposed *)
  tensor_differs set_iter rho [0%nat] (BProj [false] [true] [0%nat]) /\
  (* N(0, state="0") is converted as N(0) *)
  tensor_differs set_iter rho [0%nat] (BPrim (PN false) 0) /\
  (* TDagger has no matrix: TypeError *)
  b2t BIG rho [0%nat] set_iter (BPrim PTdg 0) = None /\
  (* MatrixBlock on qubits given in decreasing order *)
  (exists m, tensor_differs set_iter rho [0; 1]%nat (BMat m [1; 0]%nat)) /\
  (* MatrixBlock on qubits (0, 2) inside three qubits *)
  (exists m, tensor_differs set_iter rho [0; 1; 2]%nat (BMat m [0; 2]%nat)).
Proof.
  intros si rho. repeat split.
  - eexists _, [false], [true]. split; [reflexivity|]. split; [reflexivity|]. split; [reflexivity|].
    apply C_neq. left. unfold matof, gate, ketbra, ket. simpl. lra.
  - eexists _, [false], [false]. split; [reflexivity|]. split; [reflexivity|]. split; [reflexivity|].
    apply C_neq. left. unfold matof, gate1, gate, ket. simpl. lra.
  - exists (fun i j => if (Nat.eqb i 1 && Nat.eqb j 0)%bool then 1 else 0).
    eexists _, [false; true], [false; false]. split; [reflexivity|]. split; [reflexivity|]. split; [reflexivity|].
    apply C_neq. left. unfold matof, gate, ket, nmat. simpl. lra.
  - exists (fun i j => if (Nat.eqb i 1 && Nat.eqb j 0)%bool then 1 else 0).
    eexists _, [false; false; true], [false; false; false]. split; [reflexivity|]. split; [reflexivity|]. split; [reflexivity|].
    apply C_neq. left. unfold matof, gate, ket, nmat. simpl. lra.
Qed.

(** A concrete circuit meeting the hypotheses: chain(kron(H(0), N(1)), Toffoli((0,1), 2), SWAP(0,2),
    HamEvo(Z(0)+X(2), x), MatrixBlock on (1,2)). *)
Example C03_witness : forall set_iter, set_order set_iter ->
  exists b bs, b = BChain bs /\ qubits b <> [] /\ nqubits set_iter b = 3%nat /\ t_ok (seq 0 (nqubits set_iter b)) b.
Proof.
  intros si Hsi.
  set (bs := [BKron [BPrim PH 0; BPrim (PN true) 1]; BCtrl [0; 1]%nat (BPrim PX 2); BSwap 0 2;
              BEvo (BAdd [BPrim PZ 0; BPrim PX 2]) (EVar "x"); BMat (fun i j => if Nat.eqb i j then 1 else 0) [1; 2]%nat]).
  assert (En : nqubits si (BChain bs) = 3%nat).
  { destruct (C02_nqubits_composite si Hsi (BChain bs) bs (or_introl eq_refl)) as (H1 & H2 & _).
    destruct H2 as (q & Hq & E); [discriminate|].
    assert (H3 : (2 < nqubits si (BChain bs))%nat) by (apply H1; simpl; auto 20).
    assert (q <= 2)%nat by (simpl in Hq; intuition lia). lia. }
  exists (BChain bs), bs. split; [reflexivity|]. split; [discriminate|]. split; [exact En|]. rewrite En.
  simpl. repeat split; try discriminate; try (repeat constructor; simpl; intuition lia).
  - exists 2%nat. split; [reflexivity|]. simpl. intuition lia.
  - exists [0%nat], []. reflexivity.
Qed.

Print Assumptions C03_entries.
Print Assumptions C03_block_to_tensor.
Print Assumptions C03_block_to_tensor_support.
Print Assumptions C03_block_to_tensor_refuted.
Print Assumptions C03_witness.
