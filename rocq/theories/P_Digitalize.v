(** C56: turning the evolutions and arbitrary rotations of a circuit into gates. *)
From Coq Require Import String Reals List Arith Bool Lia Lra FunctionalExtensionality Permutation.
From Coquelicot Require Import Coquelicot.
From Coq Require Import List.
From Verif Require Import S_Sets S_Ops L_Ops M_QubitSupport M_Block S_Den L_Den L_Support M_BlockOps M_Tensor M_Transpile S_Transpile L_Transpile L_Gates M_Pauli P_Pauli M_Decompose P_Decompose M_Digitalize.
Import ListNotations.
Open Scope R_scope.

(** * Specification *)
(** The evolutions and the arbitrary rotations in the chains, krons and sums of a block. *)
Fixpoint evolutions (b : block) : list (block * expr) :=
  match b with BChain bs | BKron bs | BAdd bs => flat_map evolutions bs | BEvo g t => [(g, t)] | _ => [] end.
Fixpoint us (b : block) : list nat :=
  match b with BChain bs | BKron bs | BAdd bs => flat_map us bs | BU q _ _ _ => [q] | _ => [] end.
(** Every evolution replaced by the product of the evolutions under the terms of its generator. *)
Fixpoint term_by_term (b : block) : block :=
  match b with
  | BChain bs => BChain (map term_by_term bs)
  | BKron bs => BKron (map term_by_term bs)
  | BAdd bs => BAdd (map term_by_term bs)
  | BEvo g t => BChain (map (fun tc => BEvo (BScale (fst tc) (snd tc)) t) (unroll_block_with_scaling g))
  | _ => b
  end.
(** The generators the decomposition is made for: sums of weighted Pauli strings on runs of neighbours (see C41). *)
Definition decomposable (rho : env) (g : block) : Prop :=
  (exists c, block_is_commuting_hamiltonian g = Some c) /\ Forall (term_ok rho) (unroll_block_with_scaling g).

(** * Proofs *)
Lemma oseq_in {A B} (f : A -> option B) l ys y : osequence (map f l) = Some ys -> In y ys -> exists x, In x l /\ f x = Some y.
Proof.
  revert ys. induction l as [|a l IH]; intros ys H Hy; cbn [map] in H; [injection H as <-; destruct Hy|]. rewrite oseq_cons in H.
  destruct (f a) as [b|] eqn:E; [|discriminate H]. destruct (osequence (map f l)) as [r|]; [|discriminate H]. injection H as <-.
  destruct Hy as [<-|Hy]; [exists a; split; [left; reflexivity|exact E]|]. destruct (IH r eq_refl Hy) as (x & Hx & Ex). exists x. split; [right; exact Hx|exact Ex].
Qed.
(** ** What the decomposition is made of *)
Definition plain_gate (g : block) : Prop := evolutions g = [] /\ us g = [].
Lemma all_plain gs : Forall plain_gate gs -> flat_map evolutions gs = [] /\ flat_map us gs = [].
Proof. induction 1 as [|g gs [E U] F [I J]]; [split; reflexivity|]. cbn [flat_map]. rewrite E, U, I, J. split; reflexivity. Qed.
Section Order.
  Variable si : list nat -> list nat.
  Lemma zb_plain b s gs : change_to_z_basis si b s = Some gs -> Forall plain_gate gs.
  Proof. unfold change_to_z_basis. destruct (first_qubit si b) as [q|]; [|discriminate]. intros H. injection H as <-. destruct b as [[]| | | | | | | | | | | | |]; repeat constructor. Qed.
  Lemma concat_plain {A} (f : A -> option (list block)) l ys : (forall x gs, f x = Some gs -> Forall plain_gate gs) -> osequence (map f l) = Some ys -> Forall plain_gate (concat ys).
  Proof.
    intros Hf H. apply Forall_forall. intros g Hg. apply in_concat in Hg as (gs & I & J). destruct (oseq_in f l ys gs H I) as (x & _ & E). specialize (Hf x gs E). rewrite Forall_forall in Hf. apply Hf, J.
  Qed.
  Lemma term_plain t c prm bs : decompose_term si t c prm = Some bs -> Forall plain_gate bs.
  Proof.
    unfold decompose_term. destruct (as_list t) as [bl|]; [|discriminate]. destruct (osequence (map (first_qubit si) bl)) as [ix|]; [|discriminate].
    destruct (py_min ix) as [lo|]; [|discriminate]. destruct (py_max ix) as [hi|]; [|discriminate].
    destruct (osequence (map (fun b => change_to_z_basis si b 1) bl)) as [fwd|] eqn:E1; [|discriminate]. destruct (osequence (map (fun b => change_to_z_basis si b (-1)) (rev bl))) as [bkd|] eqn:E2; [|discriminate].
    intros H. injection H as <-. assert (CN : Forall plain_gate (map (fun i => CNOT i (i + 1)) (seq lo (hi - lo)))) by (apply Forall_forall; intros g Hg; apply in_map_iff in Hg as (i & <- & _); split; reflexivity).
    apply Forall_app; split; [eapply concat_plain; [|exact E1]; intros x gs; apply zb_plain|].
    apply Forall_app; split; [exact CN|]. constructor; [split; reflexivity|]. apply Forall_app; split; [apply Forall_rev, CN|].
    eapply concat_plain; [|exact E2]. intros x gs. apply zb_plain.
  Qed.
  Lemma exp_plain l prm bs : decompose_pauli_exp si l prm = Some bs -> Forall plain_gate bs.
  Proof.
    unfold decompose_pauli_exp. destruct (osequence _) as [ys|] eqn:E; [|discriminate]. intros H. injection H as <-. eapply concat_plain; [|exact E]. intros [t c] gs. apply term_plain.
  Qed.
  Lemma times_plain k l : Forall plain_gate l -> Forall plain_gate (times k l).
  Proof. intros H. unfold times. induction k as [|k IH]; cbn [repeat concat]; [constructor|]. apply Forall_app. split; assumption. Qed.
  Lemma st2_plain l prm bs : st2 si l prm = Some bs -> Forall plain_gate bs.
  Proof.
    unfold st2. destruct (rev l) as [|lst r]; [discriminate|]. destruct (decompose_pauli_exp si (rev r) _) as [o|] eqn:E1; [|discriminate]. destruct (decompose_pauli_exp si [lst] _) as [i|] eqn:E2; [|discriminate].
    intros H. injection H as <-. apply exp_plain in E1, E2. apply (times_plain max_steps). repeat (apply Forall_app; split); try assumption. apply Forall_rev. exact E1.
  Qed.
  Lemma st4_plain l prm bs : st4 si l prm = Some bs -> Forall plain_gate bs.
  Proof.
    unfold st4. destruct (st2 si l (EMul (t_delta prm) _)) as [o|] eqn:E1; [|discriminate]. destruct (st2 si l _) as [i|] eqn:E2 in |- *; [|discriminate].
    intros H. injection H as <-. apply st2_plain in E1, E2. apply (times_plain max_steps). apply Forall_app; split; [apply (times_plain 2), E1|]. apply Forall_app; split; [exact E2|apply (times_plain 2), E1].
  Qed.
  Lemma decomposition_plain g t ap b : digital_decomposition si g t ap = Some b -> plain_gate b.
  Proof.
    unfold digital_decomposition. destruct (block_is_qubit_hamiltonian g); [|discriminate]. cbn zeta. generalize (match block_is_commuting_hamiltonian g with Some _ => BASIC | None => ap end). intros order.
    destruct (lie_trotter_suzuki si g t order) as [bs|] eqn:E; [|discriminate]. intros H. injection H as <-. apply all_plain. unfold lie_trotter_suzuki in E.
    destruct order; [exact (exp_plain _ _ _ E)|exact (st2_plain _ _ _ E)|exact (st4_plain _ _ _ E)].
  Qed.
  (** ** Its qubits *)
  Lemma term_qubits rho t c prm bs q : term_ok rho (t, c) -> decompose_term si t c prm = Some bs -> In q (flat_map qubits bs) -> In q (qubits t).
  Proof.
    intros (_ & ps & S & F & a & Pm) H Hq. cbn [fst snd] in *.
    assert (QT : qubits t = map snd ps).
    { assert (FP : flat_map qubits (prims ps) = map snd ps) by (clear; induction ps as [|[p x] ps IH]; [reflexivity|]; cbn; f_equal; exact IH). inversion S as [p x E| |]; subst; [reflexivity|exact FP|exact FP]. }
    rewrite QT. destruct (string_list ps t S) as [L Ne].
    { eapply Forall_impl; [|exact F]. intros [p x] [E|[E|E]]; cbn in E; subst; reflexivity. }
    unfold decompose_term in H. rewrite L, firsts in H. destruct (min_max (map snd ps)) as (lo & hi & E1 & E2 & I1 & I2 & B); [destruct ps; [contradiction|discriminate]|].
    assert (R : rev (prims ps) = prims (rev ps)) by (unfold prims; rewrite map_rev; reflexivity). rewrite E1, E2, R, !zbasis in H. injection H as <-.
    assert (MID : forall x, (lo <= x <= hi)%nat -> In x (map snd ps)).
    { intros x Hx. apply (Permutation_in _ (Permutation_sym Pm)). apply (Permutation_in _ Pm) in I1, I2. rewrite in_seq in *. lia. }
    assert (ZB : forall s l, (forall pq, In pq l -> In pq ps) -> In q (flat_map qubits (concat (map (zb s) l))) -> In q (map snd ps)).
    { intros s l Hl Hz. apply in_flat_map in Hz as (g & G1 & G2). apply in_concat in G1 as (z & Z1 & Z2). apply in_map_iff in Z1 as ([p x] & <- & Z1). apply Hl in Z1.
      assert (x = q) by (unfold zb in Z2; cbn [fst snd] in Z2; destruct p; cbn [In] in Z2; try contradiction; destruct Z2 as [<-|Z2]; try contradiction; destruct G2 as [G2|[]]; exact G2). subst. apply (in_map snd _ _ Z1). }
    assert (CN : forall l, (forall g, In g l -> In g (map (fun i => CNOT i (i + 1)) (seq lo (hi - lo)))) -> In q (flat_map qubits l) -> In q (map snd ps)).
    { intros l Hl Hz. apply in_flat_map in Hz as (g & G1 & G2). apply Hl, in_map_iff in G1 as (i & <- & Hi). apply in_seq in Hi. apply MID. cbn in G2. destruct G2 as [<-|[<-|[]]]; lia. }
    rewrite !flat_map_app in Hq. apply in_app_iff in Hq as [Hq|Hq]; [apply (ZB 1 ps); auto|]. apply in_app_iff in Hq as [Hq|Hq]; [apply (CN _ (fun g Hg => Hg) Hq)|].
    change (In q (hi :: flat_map qubits (rev (map (fun i => CNOT i (i + 1)) (seq lo (hi - lo))) ++ concat (map (zb (-1)) (rev ps))))) in Hq.
    destruct Hq as [<-|Hq]; [exact I2|]. rewrite flat_map_app in Hq. apply in_app_iff in Hq as [Hq|Hq].
    - apply (CN (rev (map (fun i => CNOT i (i + 1)) (seq lo (hi - lo))))); [intros g Hg; apply in_rev, Hg|exact Hq].
    - apply (ZB (-1) (rev ps)); [intros pq Hp; apply in_rev, Hp|exact Hq].
  Qed.
End Order.

Lemma part_qubits x b q : part x b -> In q (qubits x) -> In q (qubits b).
Proof.
  induction 1 as [b|x b e H IH|x bs b I H IH|x bs b I H IH]; intros Hq; [exact Hq|apply IH, Hq| |]; cbn [qubits]; apply in_flat_map; exists b; split; auto.
Qed.
Lemma evo_ext rho s t : forall tc, ang rho t = s -> den rho (BEvo (BScale (fst tc) (snd tc)) t) = evo rho s tc.
Proof. intros tc <-. reflexivity. Qed.
Lemma chain_seqs rho bs : den rho (BChain bs) = seqs (map (den rho) bs).
Proof. induction bs as [|b bs IH]; [reflexivity|]. cbn [map seqs]. rewrite <- IH. reflexivity. Qed.
Lemma exp_qubits si rho l prm bs q : Forall (term_ok rho) l -> decompose_pauli_exp si l prm = Some bs -> In q (flat_map qubits bs) -> exists tc, In tc l /\ In q (qubits (fst tc)).
Proof.
  intros F H Hq. unfold decompose_pauli_exp in H. destruct (osequence _) as [ys|] eqn:E; [|discriminate H]. injection H as <-. apply in_flat_map in Hq as (g & G1 & G2). apply in_concat in G1 as (gs & G1 & G3).
  destruct (oseq_in _ l ys gs E G1) as ([t c] & I & D). exists (t, c). split; [exact I|]. cbn [fst snd] in *. rewrite Forall_forall in F. apply (term_qubits si rho t c prm gs q (F _ I) D). apply in_flat_map. exists g. split; assumption.
Qed.
Lemma decomposition_ok si rho g t ap : decomposable rho g -> exists b, digital_decomposition si g t ap = Some b /\ den rho b = den rho (term_by_term (BEvo g t)) /\ (forall q, In q (qubits b) -> In q (qubits g)).
Proof.
  intros [[c Hc] F]. destruct (C41_digital_first_order si rho g t ap c Hc F) as (b & E & D). exists b. split; [exact E|]. split.
  - rewrite D. cbn [term_by_term]. rewrite chain_seqs, map_map. reflexivity.
  - unfold digital_decomposition in E. rewrite Hc in E. destruct (block_is_qubit_hamiltonian g); [|discriminate E]. cbn [lie_trotter_suzuki] in E.
    destruct (decompose_pauli_exp si (unroll_block_with_scaling g) t) as [bs|] eqn:E1; [|discriminate E]. injection E as <-. intros q Hq. cbn [qubits] in Hq.
    destruct (exp_qubits si rho _ _ _ q F E1 Hq) as ([u x] & I & Q). cbn [fst] in Q. destruct (unroll_part g [] u x I) as [[]|[(? & ? & [] & _)|P]]. exact (part_qubits u g q P Q).
Qed.
Lemma construct_ok si k bs : set_order si -> (k = KKron -> bs <> [] /\ ForallOrdPairs disjoint_blocks bs) -> construct si k bs = Some (match k with KChain => BChain bs | KKron => BKron bs | KAdd => BAdd bs end).
Proof. intros Hs H. destruct k; cbn [construct]; try reflexivity. apply (proj1 (mk_kron_spec si Hs bs)), H. reflexivity. Qed.
Lemma ordpairs_sub bs cs : Forall2 (fun b c => forall q, In q (qubits c) -> In q (qubits b)) bs cs -> ForallOrdPairs disjoint_blocks bs -> ForallOrdPairs disjoint_blocks cs.
Proof.
  induction 1 as [|b c bs cs H F IH]; intros O; [constructor|]. inversion O as [|? ? O1 O2]; subst. constructor; [|apply IH, O2].
  apply Forall_forall. intros d Hd q Q1 Q2. clear IH O O2. induction F as [|b' c' bs cs H' F IH]; [destruct Hd|]. inversion O1; subst. destruct Hd as [<-|Hd]; [eapply H2; [apply H, Q1|apply H', Q2]|apply IH; assumption].
Qed.
(** ** The whole block *)
Definition good (si : list nat -> list nat) (rho : env) (ap : lts_order) (b : block) : Prop :=
  krons_ok b -> (forall g t, In (g, t) (evolutions b) -> decomposable rho g) ->
  exists b', digitalize si ap b = Some b' /\ den rho b' = den rho (term_by_term b) /\ (forall q, In q (qubits b') -> In q (qubits b)).
Lemma oks bs : fold_right (fun x k => krons_ok x /\ k) True bs -> Forall krons_ok bs.
Proof. induction bs as [|b bs IH]; cbn; [constructor|intros [H1 H2]; constructor; auto]. Qed.
Lemma good_list si rho ap bs : Forall (good si rho ap) bs -> Forall krons_ok bs -> (forall g t, In (g, t) (flat_map evolutions bs) -> decomposable rho g) ->
  exists cs, osequence (map (digitalize si ap) bs) = Some cs /\ map (den rho) cs = map (den rho) (map term_by_term bs) /\ Forall2 (fun b c => forall q, In q (qubits c) -> In q (qubits b)) bs cs.
Proof.
  induction 1 as [|b bs H F IH]; intros K D; [exists []; repeat split; constructor|]. inversion K as [|? ? K1 K2]; subst. cbn [flat_map] in D.
  destruct H as (b' & E & Db & Q); [exact K1|intros g t I; apply (D g t), in_app_iff; left; exact I|]. destruct IH as (cs & Es & Ds & Qs); [exact K2|intros g t I; apply (D g t), in_app_iff; right; exact I|].
  exists (b' :: cs). cbn [map]. rewrite oseq_cons, E, Es, Db, Ds. repeat split. constructor; assumption.
Qed.
Lemma sub_flat bs cs q : Forall2 (fun b c => forall q, In q (qubits c) -> In q (qubits b)) bs cs -> In q (flat_map qubits cs) -> In q (flat_map qubits bs).
Proof. induction 1 as [|b c bs cs H F IH]; cbn; [auto|]. rewrite !in_app_iff. intros [I|I]; auto. Qed.
Lemma add_map rho bs : den rho (BAdd bs) = fold_right addop zeroop (map (den rho) bs).
Proof. induction bs as [|b bs IH]; [reflexivity|]. cbn [map fold_right]. rewrite <- IH. reflexivity. Qed.
Lemma kron_chain rho bs : den rho (BKron bs) = den rho (BChain bs).
Proof. reflexivity. Qed.
Lemma digitalize_good si rho ap b : set_order si -> good si rho ap b.
Proof.
  intros Hs. induction b using block_ind'; intros K D; try (eexists; split; [reflexivity|]; split; [reflexivity|intros q' Hq; exact Hq]).
  - eexists. split; [reflexivity|]. split; [reflexivity|]. intros x. cbn. tauto.
  - destruct (good_list si rho ap bs H (oks bs K) D) as (cs & E & De & Q). exists (BChain cs). cbn [digitalize term_by_term]. rewrite E. split; [reflexivity|]. split; [rewrite !chain_seqs, De; reflexivity|]. intros q. apply sub_flat, Q.
  - destruct K as (K1 & K2 & K3). destruct (good_list si rho ap bs H (oks bs K3) D) as (cs & E & De & Q). exists (BKron cs). cbn [digitalize term_by_term]. rewrite E. split.
    + cbn [M_Tensor.obind]. apply (construct_ok si KKron cs Hs). intros _. split; [|exact (ordpairs_sub bs cs Q K2)]. intros ->. inversion Q; subst. contradiction.
    + split; [rewrite !kron_chain, !chain_seqs, De; reflexivity|]. intros q. apply sub_flat, Q.
  - destruct (good_list si rho ap bs H (oks bs K) D) as (cs & E & De & Q). exists (BAdd cs). cbn [digitalize term_by_term]. rewrite E. split; [reflexivity|]. split; [rewrite !add_map, De; reflexivity|]. intros q. apply sub_flat, Q.
  - destruct (decomposition_ok si rho b t ap (D b t (or_introl eq_refl))) as (b' & E & De & Q). exists b'. auto.
Qed.

(** * C56 *)
(** The result has no evolution and no arbitrary rotation left in its chains, krons and sums. *)
Theorem C56_digital : forall set_iter approximation b b', set_order set_iter -> digitalize set_iter approximation b = Some b' -> evolutions b' = [] /\ us b' = [].
Proof.
  intros si ap b b' Hs. revert b'. induction b using block_ind'; intros b' E; cbn [digitalize] in E; try (injection E as <-; split; reflexivity).
  - destruct (osequence _) as [cs|] eqn:O; [|discriminate E]. cbn in E. injection E as <-. apply all_plain, Forall_forall. intros c Hc. destruct (oseq_in _ _ _ _ O Hc) as (x & I & D). rewrite Forall_forall in H. apply (H x I), D.
  - destruct (osequence _) as [cs|] eqn:O; [|discriminate E]. cbn [M_Tensor.obind construct] in E. assert (b' = BKron cs) by (destruct (proj2 (mk_kron_spec si Hs cs)) as [X|X]; rewrite X in E; congruence). subst.
    apply all_plain, Forall_forall. intros c Hc. destruct (oseq_in _ _ _ _ O Hc) as (x & I & D). rewrite Forall_forall in H. apply (H x I), D.
  - destruct (osequence _) as [cs|] eqn:O; [|discriminate E]. cbn in E. injection E as <-. apply all_plain, Forall_forall. intros c Hc. destruct (oseq_in _ _ _ _ O Hc) as (x & I & D). rewrite Forall_forall in H. apply (H x I), D.
  - exact (decomposition_plain si _ _ _ _ E).
Qed.
(** If the generators are sums of Pauli strings on runs of neighbours, the result exists, uses no other qubits, and its operator is that of the block
    with every evolution replaced by the product of the evolutions under its terms. *)
Theorem C56_term_by_term : forall set_iter rho approximation b, set_order set_iter -> krons_ok b -> (forall g t, In (g, t) (evolutions b) -> decomposable rho g) ->
  exists b', digitalize set_iter approximation b = Some b' /\ den rho b' = den rho (term_by_term b) /\ (forall q, In q (qubits b') -> In q (qubits b)).
Proof. intros si rho ap b Hs K D. exact (digitalize_good si rho ap b Hs K D). Qed.
Lemma commuting_exact rho b : (forall g t, In (g, t) (evolutions b) -> decomposable rho g /\ block_is_commuting_hamiltonian g = Some true) -> den rho (term_by_term b) = den rho b.
Proof.
  assert (L : forall bs, Forall (fun b => (forall g t, In (g, t) (evolutions b) -> decomposable rho g /\ block_is_commuting_hamiltonian g = Some true) -> den rho (term_by_term b) = den rho b) bs ->
    (forall g t, In (g, t) (flat_map evolutions bs) -> decomposable rho g /\ block_is_commuting_hamiltonian g = Some true) -> map (den rho) (map term_by_term bs) = map (den rho) bs).
  { induction 1 as [|b0 bs H F IH]; intros D; [reflexivity|]. cbn [map flat_map] in *. rewrite H by (intros g t I; apply (D g t), in_app_iff; left; exact I). rewrite IH by (intros g t I; apply (D g t), in_app_iff; right; exact I). reflexivity. }
  induction b using block_ind'; intros D; try reflexivity.
  - cbn [term_by_term]. rewrite !chain_seqs, (L bs H D). reflexivity.
  - cbn [term_by_term]. rewrite !kron_chain, !chain_seqs, (L bs H D). reflexivity.
  - cbn [term_by_term]. rewrite !add_map, (L bs H D). reflexivity.
  - destruct (D b t (or_introl eq_refl)) as [[_ F] Hc]. destruct (C41_digital_exact (nodup Nat.eq_dec) rho b t BASIC Hc F) as (x & E & Dx). destruct (C41_digital_first_order (nodup Nat.eq_dec) rho b t BASIC true Hc F) as (y & E' & Dy).
    rewrite E in E'. injection E' as <-. rewrite <- Dx, Dy. cbn [term_by_term]. rewrite chain_seqs, map_map. reflexivity.
Qed.
(** With generators whose terms commute, nothing changes for the user: the operator is the same. *)
Theorem C56_exact : forall set_iter rho approximation b, set_order set_iter -> krons_ok b ->
  (forall g t, In (g, t) (evolutions b) -> decomposable rho g /\ block_is_commuting_hamiltonian g = Some true) ->
  exists b', digitalize set_iter approximation b = Some b' /\ den rho b' = den rho b.
Proof.
  intros si rho ap b Hs K D. destruct (digitalize_good si rho ap b Hs K (fun g t I => proj1 (D g t I))) as (b' & E & De & _). exists b'. split; [exact E|]. rewrite De. apply commuting_exact, D.
Qed.
(** A circuit of gates is returned as it is. *)
Theorem C56_unchanged : forall set_iter approximation b, set_order set_iter -> krons_ok b -> evolutions b = [] -> us b = [] -> digitalize set_iter approximation b = Some b.
Proof.
  intros si ap b Hs. assert (L : forall bs, Forall (fun b => krons_ok b -> evolutions b = [] -> us b = [] -> digitalize si ap b = Some b) bs -> Forall krons_ok bs ->
    flat_map evolutions bs = [] -> flat_map us bs = [] -> osequence (map (digitalize si ap) bs) = Some bs).
  { induction 1 as [|b0 bs H F IH]; intros K E U; [reflexivity|]. inversion K; subst. cbn [map flat_map] in *. apply app_eq_nil in E as [E1 E2], U as [U1 U2]. rewrite oseq_cons, H, IH by assumption. reflexivity. }
  induction b using block_ind'; intros K E U; try reflexivity; try discriminate.
  - cbn [digitalize]. rewrite (L bs H (oks bs K) E U). reflexivity.
  - destruct K as (K1 & K2 & K3). cbn [digitalize]. rewrite (L bs H (oks bs K3) E U). cbn [M_Tensor.obind]. apply (construct_ok si KKron bs Hs). intros _. split; assumption.
  - cbn [digitalize]. rewrite (L bs H (oks bs K) E U). reflexivity.
Qed.
(** Finding: blocks inside a scale factor or a control are not looked at, so their evolutions and rotations stay. *)
Theorem C56_nested_refuted : forall set_iter approximation b e cs,
  digitalize set_iter approximation (BScale b e) = Some (BScale b e) /\ digitalize set_iter approximation (BCtrl cs b) = Some (BCtrl cs b).
Proof. intros. split; reflexivity. Qed.
(** Finding: next to an evolution under a string with a gap, an operation on the qubit in the gap makes the conversion fail, because the gates
    of the decomposition also act on that qubit; the block itself is valid. *)
Theorem C56_gap_refuted : forall set_iter approximation t, set_order set_iter ->
  let b := BKron [BEvo (BKron [BPrim PX 0%nat; BPrim PX 2%nat]) t; BPrim PX 1%nat] in
  krons_ok b /\ digitalize set_iter approximation b = None.
Proof.
  intros si ap t Hs b. split.
  - split; [discriminate|]. split; [|cbn; tauto]. constructor; [|repeat constructor]. constructor; [|constructor]. cbn. intros q [<- | [<- | []]] [H|[]]; discriminate H.
  - destruct (digitalize si ap b) as [b'|] eqn:E; [|reflexivity]. exfalso. unfold b in E. cbn [digitalize map] in E. rewrite !oseq_cons in E.
    destruct (digital_decomposition si _ t ap) as [d|] eqn:Ed; [|discriminate E]. cbn [osequence M_Tensor.obind construct] in E.
    assert (Q : In 1%nat (qubits d)).
    { unfold digital_decomposition in Ed. change (block_is_qubit_hamiltonian (BKron [BPrim PX 0%nat; BPrim PX 2%nat])) with true in Ed. change (block_is_commuting_hamiltonian (BKron [BPrim PX 0%nat; BPrim PX 2%nat])) with (Some true) in Ed.
      cbn in Ed. injection Ed as <-. cbn. tauto. }
    destruct (mk_kron_spec si Hs [d; BPrim PX 1%nat]) as [H1 [H2|H2]]; rewrite H2 in E; [|discriminate E]. apply H1 in H2 as [_ O]. inversion O as [|? ? O1 _]; subst. inversion O1 as [|? ? O2 _]; subst. apply (O2 1%nat Q). left. reflexivity.
Qed.
(** A rotation, an evolution under Z(0)Z(1) + 0.5 Z(1) and a fixed gate in parallel. *)
Definition example : block :=
  BChain [BU 0%nat (EVar "a") (EVar "b") (ECst (RtoC 1));
          BKron [BEvo (BAdd [BKron [BPrim PZ 0%nat; BPrim PZ 1%nat]; BScale (BPrim PZ 1%nat) (ECst (RtoC (/ 2)))]) (EVar "t"); BPrim PH 2%nat]].
Example C56_case : forall rho, krons_ok example /\ (forall g t, In (g, t) (evolutions example) -> decomposable rho g /\ block_is_commuting_hamiltonian g = Some true) /\
  evolutions example <> [] /\ us example <> [].
Proof.
  intros rho. split; [|split; [|split; discriminate]].
  - cbn. repeat split; try discriminate. constructor; [|repeat constructor]. constructor; [|constructor]. cbn. intros q [<- | [<- | [<- | []]]] [H|[]]; discriminate H.
  - intros g t [E|[]]. injection E as <- <-. split; [|reflexivity]. split; [exists true; reflexivity|]. apply Forall_cons; [|apply Forall_cons; [|apply Forall_nil]]; (split; [reflexivity|]); cbn [fst snd].
    + exists [(PZ, 0); (PZ, 1)]%nat. split; [apply SB_kron; cbn; lia|]. split; [repeat (apply Forall_cons; [right; right; reflexivity|]); apply Forall_nil|]. exists 0%nat. apply Permutation_refl.
    + exists [(PZ, 1)]%nat. split; [apply SB_one; reflexivity|]. split; [repeat (apply Forall_cons; [right; right; reflexivity|]); apply Forall_nil|]. exists 1%nat. apply Permutation_refl.
Qed.
Print Assumptions C56_digital.
Print Assumptions C56_term_by_term.
Print Assumptions C56_exact.
Print Assumptions C56_unchanged.
Print Assumptions C56_nested_refuted.
Print Assumptions C56_gap_refuted.
