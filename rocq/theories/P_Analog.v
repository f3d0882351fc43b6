(** C43: durations and supports of analog blocks. *)
From Coq Require Import Reals List Bool Lra Lia.
From Verif Require Import M_PSR S_Sets M_QubitSupport L_QubitSupport P_QubitSupport M_Analog.
Import ListNotations.
Open Scope R_scope.

(** * Specification *)
(** Two durations agree up to numpy's default tolerance relative to the second. *)
Definition close_to (a b : R) : Prop := Rabs (a - b) <= 1 / 10 ^ 8 + 1 / 10 ^ 5 * Rabs b.
(** The qubits of a local support. *)
Definition qubits (s : support) (l : list nat) : Prop := s = SLocal l.
(** Pairwise disjoint lists. *)
Fixpoint pairwise_disjoint (ls : list (list nat)) : Prop :=
  match ls with [] => True | l :: r => (forall m, In m r -> forall q, In q l -> ~ In q m) /\ pairwise_disjoint r end.

(** * Chain *)
Theorem C43_chain : forall si bs b, mk_chain si bs = Some b ->
  b = AChain bs /\ (forall x, In x bs -> (exists ys, x = AKron ys) \/ qubit_support si x = SGlobal) /\
  duration b = rsum (map duration bs).
Proof.
  intros si bs b H. unfold mk_chain in H. destruct (forallb _ bs) eqn:E; [|discriminate]. injection H as <-. split; [reflexivity|]. split; [|reflexivity].
  intros x Hx. rewrite forallb_forall in E. specialize (E x Hx). apply orb_true_iff in E as [E|E].
  - left. destruct x; try discriminate E. eauto.
  - right. destruct (qubit_support si x); [reflexivity|discriminate E].
Qed.
Theorem C43_chain_complete : forall si bs, (forall x, In x bs -> (exists ys, x = AKron ys) \/ qubit_support si x = SGlobal) -> mk_chain si bs = Some (AChain bs).
Proof.
  intros si bs H. unfold mk_chain. replace (forallb _ bs) with true; [reflexivity|]. symmetry. apply forallb_forall. intros x Hx.
  destruct (H x Hx) as [[ys ->]|E]; [reflexivity|]. rewrite E. apply orb_true_r.
Qed.

(** * Kron *)
Lemma isclose_spec a b : np_isclose a b = true <-> close_to a b.
Proof. unfold np_isclose, close_to. destruct (Rle_dec _ _); split; intros; auto; try discriminate; contradiction. Qed.
Lemma qs_add_loc si a b : set_order si -> exists l, qs_add si (SLocal a) (SLocal b) = SLocal l /\ forall q, In q l <-> In q a \/ In q b.
Proof.
  intros Hs. unfold qs_add. destruct (support_eqb (SLocal a) (SLocal b)) eqn:E.
  - apply support_eqb_spec in E. injection E as ->. exists b. split; [reflexivity|]. tauto.
  - exists (si (a ++ b)). split; [reflexivity|]. intros q. destruct (Hs (a ++ b)) as [_ H]. rewrite H, in_app_iff. tauto.
Qed.
Lemma loop_spec si d : set_order si -> forall bs a, kron_loop si d (SLocal a) bs = true <->
  exists ls, Forall2 qubits (map (qubit_support si) bs) ls /\ pairwise_disjoint (a :: ls) /\ forall x, In x bs -> close_to d (duration x).
Proof.
  intros Hs. induction bs as [|b bs IH]; intros a; cbn [kron_loop map].
  - split; [intros _; exists []; split; [constructor|split; [simpl; split; [intros m []|exact I]|intros x []]]|reflexivity].
  - destruct (qubit_support si b) as [|lb] eqn:Eb.
    + simpl. split; [discriminate|]. intros (ls & H & _). inversion H as [|? ? ? ? Hq]; subst. unfold qubits in Hq. discriminate Hq.
    + cbn [is_global]. destruct (qs_is_disjoint (SLocal a) (SLocal lb)) eqn:Ed; cbn [negb].
      * pose proof (proj1 (qs_disjoint_spec _ _) Ed) as Ed'; clear Ed; rename Ed' into Ed. destruct (np_isclose d (duration b)) eqn:Ec; cbn [negb].
        -- apply isclose_spec in Ec. destruct (qs_add_loc si a lb Hs) as (l & El & Hl). rewrite El, IH. split.
           ++ intros (ls & H1 & [H2 H2'] & H3). exists (lb :: ls). split; [constructor; [reflexivity|exact H1]|]. split.
              ** split; [|split; [|exact H2']].
                 --- intros m [<-|Hm] q Hq Hq'; [apply (Ed q Hq Hq')|]. apply (H2 m Hm q); [apply Hl; auto|exact Hq'].
                 --- intros m Hm q Hq. apply (H2 m Hm). apply Hl. auto.
              ** intros x [<-|Hx]; [exact Ec|apply H3, Hx].
           ++ intros (ls & H1 & H2 & H3). inversion H1 as [|? lb' ? ls' Hq H1']; subst. unfold qubits in Hq. injection Hq as <-. destruct H2 as [H2 [H2' H2'']]. exists ls'. split; [exact H1'|]. split.
              ** split; [|exact H2'']. intros m Hm q Hq. apply Hl in Hq as [Hq|Hq]; [apply (H2 m (or_intror Hm) q Hq)|apply (H2' m Hm q Hq)].
              ** intros x Hx. apply H3. right. exact Hx.
        -- split; [discriminate|]. intros (ls & _ & _ & H3). exfalso. specialize (H3 b (or_introl eq_refl)). apply isclose_spec in H3. congruence.
      * split; [discriminate|]. intros (ls & H1 & [H2 _] & _). exfalso. inversion H1 as [|? lb' ? ls' Hq H1']; subst. unfold qubits in Hq. injection Hq as <-.
        assert (D : qs_is_disjoint (SLocal a) (SLocal lb) = true) by (apply (proj2 (qs_disjoint_spec _ _)); intros q Hq Hq'; apply (H2 lb (or_introl eq_refl) q Hq Hq')). congruence.
Qed.
(** A kron is accepted exactly when it has a part, all parts have local, pairwise disjoint supports, and all durations agree
    with the first one (up to numpy's tolerance). *)
Theorem C43_kron : forall si bs, set_order si ->
  ((exists b, mk_kron si bs = Some b) <->
   exists b0 r ls, bs = b0 :: r /\ Forall2 qubits (map (qubit_support si) bs) ls /\ pairwise_disjoint ls /\ forall x, In x bs -> close_to (duration b0) (duration x)).
Proof.
  intros si bs Hs. split.
  - intros [b H]. destruct bs as [|b0 r]; [discriminate|]. unfold mk_kron in H. destruct (kron_loop si (duration b0) (SLocal []) (b0 :: r)) eqn:E; [|discriminate].
    apply (loop_spec si _ Hs) in E as (ls & H1 & [_ H2] & H3). exists b0, r, ls. auto.
  - intros (b0 & r & ls & -> & H1 & H2 & H3). exists (AKron (b0 :: r)). unfold mk_kron. replace (kron_loop si (duration b0) (SLocal []) (b0 :: r)) with true; [reflexivity|]. symmetry.
    apply (loop_spec si _ Hs). exists ls. split; [exact H1|]. split; [split; [intros m _ q []|exact H2]|exact H3].
Qed.
(** Its duration is that of every part (up to the tolerance), and its support is the union of theirs. *)
Theorem C43_kron_result : forall si bs b, set_order si -> mk_kron si bs = Some b ->
  b = AKron bs /\ (forall x, In x bs -> close_to (duration b) (duration x)) /\
  exists l, qubit_support si b = SLocal l /\ forall q, In q l <-> exists x lx, In x bs /\ qubit_support si x = SLocal lx /\ In q lx.
Proof.
  intros si bs b Hs H. assert (HK := proj1 (C43_kron si bs Hs) (ex_intro _ b H)). destruct HK as (b0 & r & ls & E & H1 & H2 & H3).
  assert (Eb : b = AKron bs) by (subst bs; unfold mk_kron in H; destruct (kron_loop si (duration b0) (SLocal []) (b0 :: r)); [injection H as <-; reflexivity|discriminate]).
  split; [exact Eb|]. split; [intros x Hx; subst b bs; apply H3, Hx|].
  subst b. cbn [qubit_support]. clear - H1 Hs.
  assert (G : forall bs ls a, Forall2 qubits (map (qubit_support si) bs) ls -> exists l, fold_left (fun acc x => qs_add si acc x) (map (qubit_support si) bs) (SLocal a) = SLocal l /\
    forall q, In q l <-> In q a \/ exists x lx, In x bs /\ qubit_support si x = SLocal lx /\ In q lx).
  { clear bs ls H1. induction bs as [|b bs IH]; intros ls a H; inversion H as [|? lb ? ls' Hq H']; subst; simpl.
    - exists a. split; [reflexivity|]. intros q. split; [auto|]. intros [Hq|(x & lx & [] & _)]. exact Hq.
    - unfold qubits in Hq. rewrite Hq. destruct (qs_add_loc si a lb Hs) as (l1 & E1 & Hl1). rewrite E1. destruct (IH ls' l1 H') as (l & E & Hl). exists l. split; [exact E|].
      intros q. rewrite Hl, Hl1. split.
      + intros [[Hx|Hx]|(x & lx & X1 & X2 & X3)]; [auto|right; exists b, lb; auto|right; exists x, lx; auto].
      + intros [Hx|(x & lx & [<-|X1] & X2 & X3)]; [auto| |right; exists x, lx; auto]. rewrite Hq in X2. injection X2 as <-. auto. }
  destruct (G bs ls [] H1) as (l & E & Hl). exists l. split; [exact E|]. intros q. rewrite Hl. simpl. tauto.
Qed.
(** A chain's reported support hides a global part: a kron accepts a chain containing an evolution of the whole register. *)
Theorem C43_nested_global_refuted : exists si global_part k c b, set_order si /\
  qubit_support si global_part = SGlobal /\ mk_kron si [ALeaf 100 (SLocal [0%nat])] = Some k /\ mk_chain si [global_part; k] = Some c /\
  mk_kron si [c; ALeaf 200 (SLocal [1%nat])] = Some b.
Proof.
  exists (nodup Nat.eq_dec), (ALeaf 100 SGlobal), (AKron [ALeaf 100 (SLocal [0%nat])]), (AChain [ALeaf 100 SGlobal; AKron [ALeaf 100 (SLocal [0%nat])]]). eexists.
  assert (C : forall a b, a = b -> np_isclose a b = true).
  { intros a b ->. apply isclose_spec. unfold close_to. rewrite Rminus_eq_0, Rabs_R0. pose proof (Rabs_pos b). lra. }
  split; [intros l; split; [apply NoDup_nodup|intros q; apply nodup_In]|]. split; [reflexivity|]. split.
  - unfold mk_kron. simpl. rewrite (C 100 100 eq_refl). reflexivity.
  - split; [reflexivity|]. unfold mk_kron. simpl. rewrite (C (100 + (100 + 0)) (100 + (100 + 0)) eq_refl). simpl. rewrite (C (100 + (100 + 0)) 200 ltac:(lra)). reflexivity.
Qed.
Example C43_case : exists b, mk_kron (nodup Nat.eq_dec) [ALeaf 200 (SLocal [0%nat; 2%nat]); ALeaf 200 (SLocal [1%nat])] = Some b /\ duration b = 200.
Proof.
  assert (HK : exists b, mk_kron (nodup Nat.eq_dec) [ALeaf 200 (SLocal [0%nat; 2%nat]); ALeaf 200 (SLocal [1%nat])] = Some b).
  { apply C43_kron; [intros l; split; [apply NoDup_nodup|intros q; apply nodup_In]|]. exists (ALeaf 200 (SLocal [0%nat; 2%nat])), [ALeaf 200 (SLocal [1%nat])], [[0%nat; 2%nat]; [1%nat]]. split; [reflexivity|].
    split; [repeat constructor|]. split; [simpl; intuition; subst; simpl in *; intuition; subst; discriminate|].
    intros x [<- | [<- | []]]; unfold close_to; simpl; rewrite Rminus_eq_0, Rabs_R0, Rabs_pos_eq; lra. }
  destruct HK as [b Hb]. exists b. split; [exact Hb|]. unfold mk_kron in Hb. destruct (kron_loop _ _ _ _); [injection Hb as <-; reflexivity|discriminate].
Qed.
Print Assumptions C43_chain.
Print Assumptions C43_chain_complete.
Print Assumptions C43_kron.
Print Assumptions C43_kron_result.
Print Assumptions C43_nested_global_refuted.
