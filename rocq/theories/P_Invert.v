(** C08: reassigning qubits and inverting endianness. *)
From Coq Require Import String Reals List Arith Bool Lia Lra FunctionalExtensionality Permutation.
From Coquelicot Require Import Coquelicot.
From Coq Require Import List.
From Verif Require Import S_Sets S_Ops M_QubitSupport M_Block S_Den L_Ops L_Den L_Loc L_Adj M_BlockOps L_Support M_Tensor L_Tensor S_Transpile M_Transpile L_Transpile P_Operators P_Dagger L_Exp.
Import ListNotations.
Open Scope R_scope.
Open Scope C_scope.

Section Rename.
  Variable fs : list nat.
  Variable f : nat -> nat.
  Hypothesis Hn : NoDup fs.
  Hypothesis Hi : forall a b, In a fs -> In b fs -> f a = f b -> a = b.

  Lemma nodup_map_on (l : list nat) : (forall q, In q l -> In q fs) -> NoDup l -> NoDup (map f l).
  Proof.
    induction l as [|a l IH]; intros Hs H; simpl; [constructor|]. inversion H as [|? ? Ha Hl]; subst.
    constructor; [|apply IH; [intros; apply Hs; right; assumption|exact Hl]].
    rewrite in_map_iff. intros (b & E & Hb). apply Ha. replace a with b; [exact Hb|].
    apply Hi; auto using in_eq, in_cons.
  Qed.
  Lemma nodup_fs' : NoDup (map f fs).
  Proof. apply nodup_map_on; auto. Qed.

  Lemma upds_ren x x' u : (forall q, In q u -> In q fs) -> (forall q, In q fs -> x' (f q) = x q) ->
    forall y q, In q fs -> upds x' (map f u) y (f q) = upds x u y q.
  Proof.
    intros Hu Hx. induction u as [|a u IH]; intros y q Hq; simpl; [apply Hx; exact Hq|].
    destruct y as [|b y]; [apply Hx; exact Hq|]. unfold upd.
    destruct (Nat.eqb_spec q a) as [->|Hne]; [rewrite Nat.eqb_refl; reflexivity|].
    destruct (Nat.eqb_spec (f q) (f a)) as [E|_].
    - exfalso. apply Hne. apply Hi; auto using in_eq.
    - apply IH; [intros; apply Hu; right; assumption|exact Hq].
  Qed.
  Lemma upds0_ren r q : In q fs -> upds zeros (map f fs) r (f q) = upds zeros fs r q.
  Proof. apply upds_ren; auto. Qed.

  Definition rn (A B : Op) : Prop :=
    loc (fun q => In q fs) A /\ loc (fun q => In q (map f fs)) B /\ renamed fs f A B.

  Lemma in_map_sub u : (forall q, In q u -> In q fs) -> forall q, In q (map f u) -> In q (map f fs).
  Proof. intros H q Hq. apply in_map_iff in Hq as (a & <- & Ha). apply in_map. auto. Qed.

  Lemma rn_gate u G : (forall q, In q u -> In q fs) -> rn (gate u G) (gate (map f u) G).
  Proof.
    intros Hu. split; [constructor; exact Hu|]. split; [constructor; apply in_map_sub; exact Hu|].
    intros r c Hr Hc. unfold matof, gate, ket. rewrite map_length. apply csum_ext. intros y _.
    f_equal.
    - f_equal. rewrite map_map. apply map_ext_in. intros q Hq. apply upds0_ren. auto.
    - replace (map (upds (upds zeros (map f fs) r) (map f u) y) (map f fs)) with (map (upds (upds zeros fs r) u y) fs); [reflexivity|].
      rewrite map_map. apply map_ext_in. intros q Hq. symmetry. apply upds_ren; auto. intros; apply upds0_ren; assumption.
  Qed.
  Lemma rn_id : rn idop idop.
  Proof.
    split; [constructor|]. split; [constructor|]. intros r c Hr Hc.
    rewrite !matof_id; rewrite ?map_length; auto using nodup_fs'.
  Qed.
  Lemma rn_zero : rn zeroop zeroop.
  Proof. split; [constructor|]. split; [constructor|]. intros r c Hr Hc. reflexivity. Qed.
  Lemma rn_seq A B A' B' : rn A A' -> rn B B' -> rn (seqop A B) (seqop A' B').
  Proof.
    intros (a1 & a2 & a3) (b1 & b2 & b3). split; [constructor; assumption|]. split; [constructor; assumption|].
    intros r c Hr Hc. rewrite (matof_seq (fun q => In q (map f fs))); rewrite ?map_length; auto using nodup_fs'.
    rewrite (matof_seq (fun q => In q fs)) by auto. apply csum_ext. intros z Hz. apply bits_length in Hz.
    rewrite a3, b3 by assumption. reflexivity.
  Qed.
  Lemma rn_add A B A' B' : rn A A' -> rn B B' -> rn (addop A B) (addop A' B').
  Proof.
    intros (a1 & a2 & a3) (b1 & b2 & b3). split; [constructor; assumption|]. split; [constructor; assumption|].
    intros r c Hr Hc. rewrite !matof_add, a3, b3 by assumption. reflexivity.
  Qed.
  Lemma rn_scale k A A' : rn A A' -> rn (scaleop k A) (scaleop k A').
  Proof.
    intros (a1 & a2 & a3). split; [constructor; assumption|]. split; [constructor; assumption|].
    intros r c Hr Hc. rewrite !matof_scale, a3 by assumption. reflexivity.
  Qed.
  Lemma rn_ctrl cs A A' : (forall q, In q cs -> In q fs) -> rn A A' -> rn (ctrlop cs A) (ctrlop (map f cs) A').
  Proof.
    intros Hc0 (a1 & a2 & a3). split; [constructor; assumption|]. split; [constructor; [apply in_map_sub|]; assumption|].
    intros r c Hr Hc. rewrite !matof_ctrl; rewrite ?map_length; auto using nodup_fs'; [|apply in_map_sub; assumption].
    rewrite a3 by assumption. replace (forallb (upds zeros (map f fs) r) (map f cs)) with (forallb (upds zeros fs r) cs); [reflexivity|].
    clear -Hc0 Hi. induction cs as [|a cs IH]; simpl; [reflexivity|].
    rewrite IH by auto using in_cons. rewrite upds0_ren by auto using in_eq. reflexivity.
  Qed.
  Lemma rn_swap a b : In a fs -> In b fs -> rn (swapop a b) (swapop (f a) (f b)).
  Proof.
    intros Ha Hb. destruct (Nat.eq_dec a b) as [->|Hne].
    - rewrite !swapop_same. apply rn_id.
    - rewrite !swapop_gate; [|intros E; apply Hne; apply Hi; assumption|exact Hne].
      apply (rn_gate [a; b]). intros q [<-|[<-|[]]]; assumption.
  Qed.
End Rename.

Lemma omapseq_f (m : nat -> option nat) f l : (forall q, In q l -> m q = Some (f q)) -> osequence (map m l) = Some (map f l).
Proof.
  intros H. apply osequence_some. rewrite map_map. apply map_ext_in. exact H.
Qed.

Section Reassign.
  Variable set_iter : list nat -> list nat.
  Hypothesis Hs : set_order set_iter.
  Variable fs : list nat.
  Variable f : nat -> nat.
  Variable m : nat -> option nat.
  Hypothesis Hn : NoDup fs.
  Hypothesis Hi : forall a b, In a fs -> In b fs -> f a = f b -> a = b.
  Hypothesis Hm : forall q, In q fs -> m q = Some (f q).

  Definition good (b y : block) : Prop :=
    (forall q, In q (qubits b) -> In q fs) /\
    qubits y = map f (qubits b) /\ krons_all y /\ no_evo y /\ (forall rho, rn fs f (den rho b) (den rho y)) /\
    (forall m', (forall q, In q (qubits b) -> m' (f q) = Some q) -> reassign set_iter m' y = Some b).

  Lemma good_list (k : kind) bs ys :
    Forall2 good bs ys -> (k = KKron -> kron_ok_list bs) ->
    construct set_iter k ys = Some (comp k ys) /\ good (comp k bs) (comp k ys).
  Proof.
    intros F Hk.
    assert (Hk' : k = KKron -> kron_ok_list ys).
    { intros E. destruct (Hk E) as [H1 H2]. split.
      - inversion F; subst; [congruence|discriminate].
      - eapply fop_map; [|exact F|exact H2]. intros a a' b b' (s1 & q1 & _) (s2 & q2 & _) HR q Ha Hb.
        rewrite q1 in Ha. rewrite q2 in Hb. apply in_map_iff in Ha as (u & Eu & Hu). apply in_map_iff in Hb as (v & Ev & Hv).
        assert (u = v) by (apply Hi; [auto|auto|congruence]). subst v. eapply HR; eassumption. }
    split; [apply construct_ok; assumption|].
    assert (Hsub : forall q, In q (flat_map qubits bs) -> In q fs).
    { intros q Hq. apply in_flat_map in Hq as (x & Hx & Hq). clear -F Hx Hq.
      induction F as [|b y bs ys H F IH]; [destruct Hx|]. destruct Hx as [->|Hx]; [apply H; exact Hq|auto]. }
    unfold good. rewrite !qubits_comp. split; [exact Hsub|]. split.
    { clear -F. induction F as [|b y bs ys H F IH]; [reflexivity|]. simpl. rewrite IH, map_app. f_equal. apply H. }
    assert (HA : Forall krons_all ys).
    { clear -F. induction F as [|b y bs ys H F IH]; constructor; [apply H|exact IH]. }
    assert (HB : Forall no_evo ys).
    { clear -F. induction F as [|b y bs ys H F IH]; constructor; [apply H|exact IH]. }
    split.
    { destruct k; simpl; try (apply all_forall; exact HA).
      destruct (Hk' eq_refl). split; [assumption|]. split; [assumption|]. apply all_forall; exact HA. }
    split; [destruct k; simpl; apply all_forall; exact HB|].
    split.
    { intros rho. destruct k; simpl; clear -F Hn Hi; induction F as [|b y bs ys H F IH]; simpl;
        try apply rn_id; try apply rn_zero; try (apply rn_seq; [| |apply H|exact IH]; assumption); try (apply rn_add; [apply H|exact IH]); assumption. }
    intros m' H'.
    assert (HO : osequence (map (reassign set_iter m') ys) = Some bs).
    { apply osequence_some. clear -F H'. induction F as [|b y bs ys H F IH]; [reflexivity|]. simpl. f_equal.
      - apply H. intros q Hq. apply H'. simpl. apply in_app_iff; left; exact Hq.
      - apply IH. intros q Hq. apply H'. simpl. apply in_app_iff; right; exact Hq. }
    destruct k; simpl; rewrite HO; cbn [obind]; rewrite (construct_ok set_iter Hs); auto.
  Qed.

  Lemma forall_good bs : Forall (fun b => krons_all b -> no_evo b -> (forall q, In q (qubits b) -> In q fs) ->
       exists y, reassign set_iter m b = Some y /\ good b y) bs ->
    Forall krons_all bs -> Forall no_evo bs -> (forall q, In q (flat_map qubits bs) -> In q fs) ->
    exists ys, osequence (map (reassign set_iter m) bs) = Some ys /\ Forall2 good bs ys.
  Proof.
    intros H1 H2 H3 H4. apply osequence_map_ex. rewrite Forall_forall in *. intros b Hb.
    apply H1; auto. intros q Hq. apply H4. apply in_flat_map. eauto.
  Qed.

  Lemma reassign_good b : krons_all b -> no_evo b -> (forall q, In q (qubits b) -> In q fs) ->
    exists y, reassign set_iter m b = Some y /\ good b y.
  Proof.
    induction b as [p q|k br qs|r q e|q a b c|a b|c a b|cs b IH|cs b IH|b e IH|bs IH|bs IH|bs IH|mt qs|g t IH]
      using block_ind'; cbn [qubits krons_all no_evo]; intros Hk He Hq; cbn [reassign].
    - rewrite Hm by (apply Hq; left; reflexivity). eexists; split; [reflexivity|]. unfold good.
      split; [exact Hq|]. split; [reflexivity|]. split; [exact I|]. split; [exact I|]. split.
      + intros rho. apply (rn_gate fs f Hi [q]). exact Hq.
      + intros m' H'. simpl. rewrite H' by (left; reflexivity). reflexivity.
    - rewrite (omapseq_f m f) by auto. eexists; split; [reflexivity|]. unfold good.
      split; [exact Hq|]. split; [reflexivity|]. split; [exact I|]. split; [exact I|]. split.
      + intros rho. apply (rn_gate fs f Hi qs). exact Hq.
      + intros m' H'. cbn [reassign]. rewrite map_map. simpl in H'.
        replace (map (fun x => m' (f x)) qs) with (map Some qs) by (apply map_ext_in; intros; symmetry; auto).
        rewrite (proj2 (osequence_some _ qs) eq_refl). reflexivity.
    - rewrite Hm by (apply Hq; left; reflexivity). eexists; split; [reflexivity|]. unfold good.
      split; [exact Hq|]. split; [reflexivity|]. split; [exact I|]. split; [exact I|]. split.
      + intros rho. apply (rn_gate fs f Hi [q]). exact Hq.
      + intros m' H'. simpl. rewrite H' by (left; reflexivity). reflexivity.
    - rewrite Hm by (apply Hq; left; reflexivity). eexists; split; [reflexivity|]. unfold good.
      split; [exact Hq|]. split; [reflexivity|]. split; [exact I|]. split; [exact I|]. split.
      + intros rho. cbn [den]. apply rn_seq; [assumption|assumption| |apply rn_seq; [assumption|assumption| |]];
          apply (rn_gate fs f Hi [q]); exact Hq.
      + intros m' H'. simpl. rewrite H' by (left; reflexivity). reflexivity.
    - rewrite !Hm by (apply Hq; simpl; auto). eexists; split; [reflexivity|]. unfold good.
      split; [exact Hq|]. split; [reflexivity|]. split; [exact I|]. split; [exact I|]. split.
      + intros rho. cbn [den]. apply rn_swap; auto using in_eq, in_cons.
      + intros m' H'. simpl. rewrite !H' by (simpl; auto). reflexivity.
    - rewrite !Hm by (apply Hq; simpl; auto). eexists; split; [reflexivity|]. unfold good.
      split; [exact Hq|]. split; [reflexivity|]. split; [exact I|]. split; [exact I|]. split.
      + intros rho. cbn [den]. apply (rn_ctrl fs f Hn Hi [c]); [intros q [<-|[]]; auto using in_eq|].
        apply rn_swap; auto using in_eq, in_cons.
      + intros m' H'. simpl. rewrite !H' by (simpl; auto). reflexivity.
    - destruct (IH Hk He) as (y & Ey & G1 & G2 & G3 & G4 & G5 & G6); [intros; apply Hq, in_app_iff; right; assumption|].
      rewrite (omapseq_f m f) by (intros; apply Hm, Hq, in_app_iff; left; assumption). rewrite Ey.
      eexists; split; [reflexivity|]. unfold good. cbn [qubits].
      split; [exact Hq|]. split; [rewrite map_app, G2; reflexivity|]. split; [exact G3|]. split; [exact G4|]. split.
      + intros rho. apply rn_ctrl; auto. intros; apply Hq, in_app_iff; left; assumption.
      + intros m' H'. cbn [reassign]. rewrite map_map.
        replace (map (fun x => m' (f x)) cs) with (map Some cs) by (apply map_ext_in; intros; symmetry; apply H', in_app_iff; left; assumption).
        rewrite (proj2 (osequence_some _ cs) eq_refl). cbn [obind]. rewrite G6; [reflexivity|]. intros; apply H', in_app_iff; right; assumption.
    - destruct (IH Hk He) as (y & Ey & G1 & G2 & G3 & G4 & G5 & G6); [intros; apply Hq, in_app_iff; right; assumption|].
      rewrite (omapseq_f m f) by (intros; apply Hm, Hq, in_app_iff; left; assumption). rewrite Ey.
      eexists; split; [reflexivity|]. unfold good. cbn [qubits].
      split; [exact Hq|]. split; [rewrite map_app, G2; reflexivity|]. split; [exact G3|]. split; [exact G4|]. split.
      + intros rho. apply rn_ctrl; auto. intros; apply Hq, in_app_iff; left; assumption.
      + intros m' H'. cbn [reassign]. rewrite map_map.
        replace (map (fun x => m' (f x)) cs) with (map Some cs) by (apply map_ext_in; intros; symmetry; apply H', in_app_iff; left; assumption).
        rewrite (proj2 (osequence_some _ cs) eq_refl). cbn [obind]. rewrite G6; [reflexivity|]. intros; apply H', in_app_iff; right; assumption.
    - destruct (IH Hk He Hq) as (y & Ey & G1 & G2 & G3 & G4 & G5 & G6). rewrite Ey.
      eexists; split; [reflexivity|]. unfold good. cbn [qubits].
      split; [exact Hq|]. split; [exact G2|]. split; [exact G3|]. split; [exact G4|]. split.
      + intros rho. apply rn_scale. apply G5.
      + intros m' H'. cbn [reassign]. rewrite G6 by assumption. reflexivity.
    - apply all_forall in Hk. apply all_forall in He.
      destruct (forall_good bs IH Hk He Hq) as (ys & Ey & F). rewrite Ey. cbn [obind].
      destruct (good_list KChain bs ys F) as [E G]; [discriminate|]. exists (BChain ys). split; [exact E|exact G].
    - destruct Hk as (K1 & K2 & Hk). apply all_forall in Hk. apply all_forall in He.
      destruct (forall_good bs IH Hk He Hq) as (ys & Ey & F). rewrite Ey. cbn [obind].
      destruct (good_list KKron bs ys F) as [E G]; [intros _; split; assumption|]. exists (BKron ys). split; [exact E|exact G].
    - apply all_forall in Hk. apply all_forall in He.
      destruct (forall_good bs IH Hk He Hq) as (ys & Ey & F). rewrite Ey. cbn [obind].
      destruct (good_list KAdd bs ys F) as [E G]; [discriminate|]. exists (BAdd ys). split; [exact E|exact G].
    - rewrite (omapseq_f m f) by auto. eexists; split; [reflexivity|]. unfold good.
      split; [exact Hq|]. split; [reflexivity|]. split; [exact I|]. split; [exact I|]. split.
      + intros rho. apply (rn_gate fs f Hi qs). exact Hq.
      + intros m' H'. cbn [reassign]. rewrite map_map. simpl in H'.
        replace (map (fun x => m' (f x)) qs) with (map Some qs) by (apply map_ext_in; intros; symmetry; auto).
        rewrite (proj2 (osequence_some _ qs) eq_refl). reflexivity.
    - destruct He.
  Qed.
End Reassign.

(** reassign with an injective map renames the qubits of the block and nothing else; the inverse map undoes it. *)
Theorem C08_reassign : forall set_iter fs f m b, set_order set_iter -> NoDup fs ->
  (forall a c, In a fs -> In c fs -> f a = f c -> a = c) -> (forall q, In q fs -> m q = Some (f q)) ->
  krons_all b -> no_evo b -> (forall q, In q (qubits b) -> In q fs) ->
  exists y, reassign set_iter m b = Some y /\ qubits y = map f (qubits b) /\
    (forall rho, renamed fs f (den rho b) (den rho y)) /\
    (forall m', (forall q, In q fs -> m' (f q) = Some q) -> reassign set_iter m' y = Some b).
Proof.
  intros si fs f m b Hs Hn Hi Hm Hk He Hq.
  destruct (reassign_good si Hs fs f m Hn Hi Hm b Hk He Hq) as (y & Ey & G1 & G2 & G3 & G4 & G5 & G6).
  exists y. split; [exact Ey|]. split; [exact G2|]. split; [intros rho; apply G5|].
  intros m' H'. apply G6. auto.
Qed.

Lemma upds_snoc x qs bs q b : length qs = length bs -> upds x (qs ++ [q]) (bs ++ [b]) = upds (upd x q b) qs bs.
Proof.
  revert bs. induction qs as [|a qs IH]; intros [|c bs]; simpl; try discriminate; [reflexivity|].
  intros H. injection H as H. rewrite IH by exact H. reflexivity.
Qed.

Lemma upds_upd_out x q b qs bs : ~ In q qs -> upds (upd x q b) qs bs = upd (upds x qs bs) q b.
Proof.
  revert bs. induction qs as [|a qs IH]; intros [|c bs] H; simpl; try reflexivity.
  rewrite IH by (intros Hin; apply H; right; exact Hin). apply upd_comm. intros E. apply H. left. congruence.
Qed.

Lemma upds_rev x qs : NoDup qs -> forall bs, length bs = length qs -> upds x (rev qs) bs = upds x qs (rev bs).
Proof.
  intros Hn. induction qs as [|q qs IH] using rev_ind; intros bs Hl.
  - destruct bs; [reflexivity|discriminate].
  - destruct bs as [|b bs]; [rewrite app_length in Hl; simpl in Hl; lia|].
    rewrite rev_app_distr. simpl. apply NoDup_remove in Hn as [Hn Hni]. rewrite app_nil_r in Hn, Hni.
    rewrite app_length in Hl; simpl in Hl. assert (Hl' : length bs = length qs) by lia.
    rewrite IH by assumption. rewrite upds_snoc by (rewrite rev_length; lia).
    rewrite upds_upd_out by exact Hni. reflexivity.
Qed.

Lemma matof_rev fs A r c : NoDup fs -> length r = length fs -> length c = length fs ->
  matof (rev fs) A r c = matof fs A (rev r) (rev c).
Proof.
  intros Hn Hr Hc. unfold matof. rewrite upds_rev by assumption. f_equal.
  extensionality x. unfold ket. rewrite map_rev.
  destruct (eqbits (rev (map x fs)) c) eqn:E.
  - apply eqbits_true in E. subst c. rewrite rev_involutive, eqbits_refl. reflexivity.
  - destruct (eqbits (map x fs) (rev c)) eqn:E2; [|reflexivity].
    apply eqbits_true in E2. rewrite E2, rev_involutive, eqbits_refl in E. discriminate.
Qed.

Lemma map_sub_seq n : map (fun q => n - 1 - q)%nat (seq 0 n) = rev (seq 0 n).
Proof.
  apply (nth_ext _ _ 0%nat 0%nat); [rewrite map_length, rev_length; reflexivity|].
  rewrite map_length, seq_length. intros i Hi. rewrite rev_nth by (rewrite seq_length; exact Hi).
  rewrite seq_length. rewrite (nth_indep _ 0%nat ((fun q => n - 1 - q)%nat 0%nat)) by (rewrite map_length, seq_length; exact Hi).
  rewrite (map_nth (fun q => n - 1 - q)%nat). rewrite !seq_nth by lia. lia.
Qed.

(** Inverting the endianness of a block reverses the bit order of its matrix, maps qubit q to n-1-q, and doing
    it twice gives the original block back. *)
Theorem C08_invert_block : forall set_iter n b, set_order set_iter -> krons_all b -> no_evo b ->
  (forall q, In q (qubits b) -> (q < n)%nat) ->
  exists y, invert_block set_iter n b = Some y /\
    qubits y = map (fun q => n - 1 - q)%nat (qubits b) /\
    (forall rho r c, length r = n -> length c = n ->
       matof (seq 0 n) (den rho y) r c = matof (seq 0 n) (den rho b) (rev r) (rev c)) /\
    invert_block set_iter n y = Some b.
Proof.
  intros si n b Hs Hk He Hq.
  assert (Hm : forall q, In q (seq 0 n) -> invert_map n q = Some (n - 1 - q)%nat).
  { intros q H. apply in_seq in H. unfold invert_map. destruct (Nat.ltb_spec q n); [reflexivity|lia]. }
  destruct (C08_reassign si (seq 0 n) (fun q => n - 1 - q)%nat (invert_map n) b Hs (seq_NoDup n 0))
    as (y & Ey & G2 & G5 & G6); try assumption.
  - intros a c Ha Hc. apply in_seq in Ha. apply in_seq in Hc. lia.
  - intros q H. apply in_seq. specialize (Hq q H). lia.
  - exists y. split; [exact Ey|]. split; [exact G2|]. split.
    + intros rho r c Hr Hc. specialize (G5 rho (rev r) (rev c)). rewrite map_sub_seq in G5.
      rewrite matof_rev in G5; rewrite ?rev_length, ?seq_length; auto using seq_NoDup.
      rewrite !rev_involutive in G5. apply G5; rewrite rev_length, seq_length; assumption.
    + apply G6. intros q H. rewrite Hm; [|apply in_seq in H; apply in_seq; lia].
      apply in_seq in H. f_equal. lia.
Qed.

(** * State vectors and counters *)
Lemma nat_to_bits_mod n : forall k j, nat_to_bits n (k + j * 2 ^ n) = nat_to_bits n k.
Proof.
  induction n as [|n IH]; intros k j; simpl; [reflexivity|]. f_equal.
  - rewrite !Nat.testbit_eqb. f_equal.
    replace (k + j * (2 ^ n + (2 ^ n + 0)))%nat with (k + (j * 2) * 2 ^ n)%nat by lia.
    rewrite Nat.div_add by (apply Nat.pow_nonzero; lia). rewrite Nat.mod_add by lia. reflexivity.
  - replace (k + j * (2 ^ n + (2 ^ n + 0)))%nat with (k + (j * 2) * 2 ^ n)%nat by lia. apply IH.
Qed.
Lemma nat_to_bits_bits l : nat_to_bits (length l) (bits_to_nat l) = l.
Proof.
  induction l as [|b l IH]; simpl; [reflexivity|]. f_equal.
  - rewrite Nat.testbit_eqb. rewrite Nat.add_comm, Nat.div_add by (apply Nat.pow_nonzero; lia).
    rewrite Nat.div_small by apply bits_to_nat_lt. destruct b; reflexivity.
  - rewrite Nat.add_comm, nat_to_bits_mod. exact IH.
Qed.

Lemma bits_to_nat_of_lt n k : (k < 2 ^ n)%nat -> exists l, length l = n /\ bits_to_nat l = k.
Proof.
  intros H. assert (Hin : In k (map bits_to_nat (bits n))) by (rewrite map_bits_seq; apply in_seq; lia).
  apply in_map_iff in Hin as (l & E & Hl). apply bits_length in Hl. eauto.
Qed.

Lemma invert_wf_length n wf : length (invert_wf n wf) = (2 ^ n)%nat.
Proof. unfold invert_wf. rewrite map_length, seq_length. reflexivity. Qed.

Lemma invert_wf_nth n wf l : length l = n -> nth (bits_to_nat l) (invert_wf n wf) (RtoC 0) = nth (bits_to_nat (rev l)) wf (RtoC 0).
Proof.
  intros Hl. unfold invert_wf.
  set (g := fun k => nth (bits_to_nat (rev (nat_to_bits n k))) wf (RtoC 0)).
  assert (Hlt : (bits_to_nat l < 2 ^ n)%nat) by (rewrite <- Hl; apply bits_to_nat_lt).
  rewrite (nth_indep _ (RtoC 0) (g 0%nat)) by (rewrite map_length, seq_length; exact Hlt).
  rewrite map_nth, seq_nth by exact Hlt. simpl. unfold g. rewrite <- Hl at 1. rewrite nat_to_bits_bits. reflexivity.
Qed.

(** Entry |b1..bn> of the inverted vector is entry |bn..b1> of the vector; twice gives the vector back. *)
Theorem C08_invert_wavefunction : forall n wf, length wf = (2 ^ n)%nat ->
  length (invert_wf n wf) = (2 ^ n)%nat /\
  (forall l, length l = n -> nth (bits_to_nat l) (invert_wf n wf) (RtoC 0) = nth (bits_to_nat (rev l)) wf (RtoC 0)) /\
  invert_wf n (invert_wf n wf) = wf.
Proof.
  intros n wf Hw. split; [apply invert_wf_length|]. split; [intros; apply invert_wf_nth; assumption|].
  apply (nth_ext _ _ (RtoC 0) (RtoC 0)); [rewrite invert_wf_length; auto|].
  rewrite invert_wf_length. intros k Hk. destruct (bits_to_nat_of_lt n k Hk) as (l & Hl & <-).
  rewrite !invert_wf_nth by (rewrite ?rev_length; exact Hl). rewrite rev_involutive. reflexivity.
Qed.

(** The keys of an inverted counter are the reversed bit strings, with the same counts. *)
Theorem C08_invert_counter : forall c,
  invert_counter c = map (fun kv => (rev (fst kv), snd kv)) c /\ invert_counter (invert_counter c) = c.
Proof.
  assert (H : forall c, invert_counter c = map (fun kv => (rev (fst kv), snd kv)) c).
  { intros c. unfold invert_counter. apply map_ext. intros [k v]. simpl. f_equal.
    rewrite <- (rev_length k). apply nat_to_bits_bits. }
  intros c. split; [apply H|]. rewrite !H, map_map. rewrite <- (map_id c) at 2. apply map_ext.
  intros [k v]. simpl. rewrite rev_involutive. reflexivity.
Qed.

Lemma bits_rev_perm n (g : list bool -> C) : csum (fun c => g (rev c)) (bits n) = csum g (bits n).
Proof.
  rewrite <- (csum_map (@rev bool) g). apply csum_perm.
  apply NoDup_Permutation.
  - apply NoDup_map_inj; [|apply bits_nodup]. intros a b Ha Hb E. rewrite <- (rev_involutive a), E, rev_involutive. reflexivity.
  - apply bits_nodup.
  - intros l. rewrite in_map_iff. split.
    + intros (x & <- & Hx). apply bits_length in Hx. apply in_bits_iff. rewrite rev_length. exact Hx.
    + intros Hl. apply bits_length in Hl. exists (rev l). rewrite rev_involutive. split; [reflexivity|].
      apply in_bits_iff. rewrite rev_length. exact Hl.
Qed.

Lemma run_vec_nth n A v l : length l = n ->
  nth (bits_to_nat l) (run_vec n A v) (RtoC 0) = csum (fun c => matof (seq 0 n) A l c * nth (bits_to_nat c) v (RtoC 0)) (bits n).
Proof.
  intros Hl. unfold run_vec.
  set (g := fun r => csum (fun c => matof (seq 0 n) A r c * nth (bits_to_nat c) v (RtoC 0)) (bits n)).
  replace (map g (bits n)) with (map (fun k => g (nat_to_bits n k)) (seq 0 (2 ^ n))).
  2:{ rewrite <- map_bits_seq, map_map. apply map_ext_in. intros x Hx. apply bits_length in Hx. rewrite <- Hx, nat_to_bits_bits. reflexivity. }
  assert (Hlt : (bits_to_nat l < 2 ^ n)%nat) by (rewrite <- Hl; apply bits_to_nat_lt).
  set (h := fun k => g (nat_to_bits n k)).
  rewrite (nth_indep _ (RtoC 0) (h 0%nat)) by (rewrite map_length, seq_length; exact Hlt).
  rewrite map_nth, seq_nth by exact Hlt. unfold h. simpl. rewrite <- Hl at 1. rewrite nat_to_bits_bits. reflexivity.
Qed.
Lemma bits_count n : length (bits n) = (2 ^ n)%nat.
Proof. rewrite <- (map_length bits_to_nat), map_bits_seq, seq_length. reflexivity. Qed.
Lemma run_vec_length n A v : length (run_vec n A v) = (2 ^ n)%nat.
Proof. unfold run_vec. rewrite map_length. apply bits_count. Qed.

(** Running the inverted block on the inverted state gives the inverted result. *)
Theorem C08_invert_consistent : forall set_iter n b y rho v, set_order set_iter -> krons_all b -> no_evo b ->
  (forall q, In q (qubits b) -> (q < n)%nat) -> invert_block set_iter n b = Some y -> length v = (2 ^ n)%nat ->
  run_vec n (den rho y) (invert_wf n v) = invert_wf n (run_vec n (den rho b) v).
Proof.
  intros si n b y rho v Hs Hk He Hq Ey Hv.
  destruct (C08_invert_block si n b Hs Hk He Hq) as (y' & Ey' & _ & H & _).
  assert (y' = y) by congruence. subst y'.
  apply (nth_ext _ _ (RtoC 0) (RtoC 0)); [rewrite run_vec_length, invert_wf_length; reflexivity|].
  rewrite run_vec_length. intros k Hkk. destruct (bits_to_nat_of_lt n k Hkk) as (l & Hl & <-).
  rewrite run_vec_nth, invert_wf_nth by exact Hl.
  rewrite run_vec_nth by (rewrite rev_length; exact Hl).
  rewrite <- (bits_rev_perm n (fun c => matof (seq 0 n) (den rho b) (rev l) c * nth (bits_to_nat c) v (RtoC 0))).
  apply csum_ext. intros c Hc. apply bits_length in Hc. rewrite H by assumption. rewrite invert_wf_nth by exact Hc. reflexivity.
Qed.

(** HamEvo keeps acting on the original qubits: its generator is not reassigned. *)
Theorem C08_invert_evolution_refuted : exists n b y rho r c,
  (forall q, In q (qubits b) -> (q < n)%nat) /\ krons_all b /\
  (forall set_iter, set_order set_iter -> invert_block set_iter n b = Some y) /\
  length r = n /\ length c = n /\
  matof (seq 0 n) (den rho y) r c <> matof (seq 0 n) (den rho b) (rev r) (rev c).
Proof.
  set (b := BEvo (BPrim (PN true) 0) (ECst (RtoC PI))).
  exists 2%nat, b, b, (fun _ => 0%R), [true; false], [true; false].
  split; [simpl; lia|]. split; [exact I|]. split.
  { intros si Hs. unfold invert_block, b. cbn [reassign].
    replace (forallb _ _) with true; [reflexivity|]. symmetry. apply forallb_forall. intros q Hq.
    apply (in_bsup si Hs) in Hq. simpl in Hq. destruct Hq as [<-|[]]. reflexivity. }
  split; [reflexivity|]. split; [reflexivity|].
  set (A := fun r c : list bool => - Ci * ang (fun _ => 0%R) (ECst (RtoC PI)) * matof [0%nat] (den (fun _ => 0%R) (BPrim (PN true) 0)) r c).
  assert (D : den (fun _ => 0%R) b = gate [0%nat] (bexp 1 A)) by reflexivity.
  rewrite D. rewrite !matof_gate_sub; try reflexivity; try (simpl; repeat constructor; simpl; intuition lia).
  assert (HA : forall r c, length r = 1%nat -> length c = 1%nat ->
     A r c = if eqbits r c then RtoC (match r with [true] => - PI | _ => 0 end)%R * Ci else RtoC 0).
  { intros r c Hr Hc. unfold A. cbn [den]. unfold gate1. rewrite matof_gate by (simpl; repeat constructor; simpl; tauto || assumption).
    destruct r as [|[] [|]], c as [|[] [|]]; try discriminate; cbn; apply Ceq; simpl; ring. }
  rewrite !(bexp_diag 1 (fun r => match r with [true] => (- PI)%R | _ => 0%R end) A HA) by reflexivity.
  cbn. unfold cis. rewrite cos_neg, cos_PI, cos_0. apply C_neq. left. simpl. lra.
Qed.

(** The hypotheses of the theorems above hold for a controlled, scaled, nested block on three qubits. *)
Example C08_witness : forall set_iter, set_order set_iter ->
  let b := BChain [BCtrl [2%nat; 0%nat] (BKron [BPrim PX 1]); BScale (BKron [BRot RX_ 0 (EVar "t"); BSwap 1 2]) (EVar "s")] in
  krons_all b /\ no_evo b /\ (forall q, In q (qubits b) -> (q < 3)%nat) /\
  invert_block set_iter 3 b =
    Some (BChain [BCtrl [0%nat; 2%nat] (BKron [BPrim PX 1]); BScale (BKron [BRot RX_ 2 (EVar "t"); BSwap 1 0]) (EVar "s")]).
Proof.
  intros si Hs b.
  assert (Hk : krons_all b) by (simpl; repeat split; try discriminate; repeat constructor; simpl; intuition lia).
  split; [exact Hk|]. split; [simpl; tauto|].
  split; [simpl; intuition lia|].
  unfold invert_block, b. cbn [reassign map]. unfold invert_map. cbn [Nat.ltb Nat.leb Nat.sub omap obind osequence].
  repeat (rewrite (construct_ok si Hs) by (intros _; split; [discriminate|]; repeat constructor; unfold disjoint_blocks; simpl; intros; intuition lia); cbn [obind omap osequence comp]).
  reflexivity.
Qed.

Print Assumptions C08_reassign.
Print Assumptions C08_invert_block.
Print Assumptions C08_invert_wavefunction.
Print Assumptions C08_invert_counter.
Print Assumptions C08_invert_consistent.
Print Assumptions C08_invert_evolution_refuted.
