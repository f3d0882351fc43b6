From Coq Require Import String Reals List Arith Bool Lia.
From Coquelicot Require Import Coquelicot.
From Coq Require Import List.
From Verif Require Import S_Sets S_Ops M_QubitSupport L_QubitSupport M_Block S_Den L_Den M_BlockOps.
Import ListNotations.

Section WithSetOrder.
  Variable set_iter : list nat -> list nat.
  Hypothesis Hs : set_order set_iter.

  Lemma fold_supports (l : list support) : forall (ls : list (list nat)) acc,
    l = map SLocal ls -> NoDup acc ->
    exists r, fold_left (qs_add set_iter) l (SLocal acc) = SLocal r /\ NoDup r /\
              (forall q, In q r <-> In q acc \/ In q (concat ls)).
  Proof.
    induction l as [|s l IH]; intros [|a ls] acc E Hn; try discriminate; simpl.
    - exists acc. split; [reflexivity|]. split; [exact Hn|]. intro q; tauto.
    - injection E as -> E. destruct (qs_add_local set_iter Hs acc a) as (r & Er & Hr & Nr).
      rewrite Er. destruct (IH ls r E (Nr Hn)) as (r' & Er' & Nr' & Hr').
      exists r'. split; [exact Er'|]. split; [exact Nr'|].
      intro q. rewrite Hr', Hr, in_app_iff. tauto.
  Qed.

  Lemma sum_supports_spec ls : exists r, sum_supports set_iter (map SLocal ls) = SLocal r /\ NoDup r /\
    (forall q, In q r <-> In q (concat ls)).
  Proof.
    unfold sum_supports. destruct (fold_supports _ ls [] eq_refl (NoDup_nil _)) as (r & E & N & H).
    rewrite E. destruct (qs_add_local set_iter Hs r []) as (r' & E' & H' & N').
    exists r'. split; [exact E'|]. split; [auto|]. intro q. rewrite H', H. simpl. tauto.
  Qed.

  Lemma bsup_spec b : exists l, bsup set_iter b = SLocal l /\ (forall q, In q l <-> In q (qubits b)) /\
    (match b with BChain _ | BKron _ | BAdd _ => NoDup l | _ => True end).
  Proof.
    assert (Hc : forall bs, Forall (fun b => exists l, bsup set_iter b = SLocal l /\
         (forall q, In q l <-> In q (qubits b)) /\
         (match b with BChain _ | BKron _ | BAdd _ => NoDup l | _ => True end)) bs ->
         exists l, sum_supports set_iter (map (bsup set_iter) bs) = SLocal l /\
           (forall q, In q l <-> In q (flat_map qubits bs)) /\ NoDup l).
    { intros bs H.
      assert (E : exists ls, map (bsup set_iter) bs = map SLocal ls /\
                  forall q, In q (concat ls) <-> In q (flat_map qubits bs)).
      { induction H as [|b0 bs (l & El & Hl & _) _ (ls & Els & Hls)]; simpl.
        - exists []. split; [reflexivity|]. simpl; tauto.
        - exists (l :: ls). simpl. rewrite El, Els. split; [reflexivity|].
          intro q. rewrite !in_app_iff, Hl, Hls. tauto. }
      destruct E as (ls & Els & Hls). rewrite Els.
      destruct (sum_supports_spec ls) as (r & Er & Nr & Hr).
      exists r. split; [exact Er|]. split; [|exact Nr]. intro q. rewrite Hr, Hls. tauto. }
    induction b as [p q|k br qs|r q e|q a b c|a b|c a b|cs b (l & E & H & _)|cs b (l & E & H & _)|b e (l & E & H & _)|bs IH|bs IH|bs IH|m qs|g t (l & E & H & _)]
      using block_ind'; cbn [bsup qubits]; try (eexists; split; [reflexivity|split; [tauto|exact I]]).
    - exists (cs ++ l). rewrite E. split; [reflexivity|]. split; [|exact I]. intro q. rewrite !in_app_iff, H. tauto.
    - exists (cs ++ l). rewrite E. split; [reflexivity|]. split; [|exact I]. intro q. rewrite !in_app_iff, H. tauto.
    - exists l. auto.
    - apply Hc; exact IH.
    - apply Hc; exact IH.
    - apply Hc; exact IH.
    - exists l. auto.
  Qed.

  Lemma in_bsup b q : In q (locals (bsup set_iter b)) <-> In q (qubits b).
  Proof. destruct (bsup_spec b) as (l & -> & H & _). apply H. Qed.

  Definition disjoint_blocks (a b : block) : Prop :=
    forall q, In q (qubits a) -> In q (qubits b) -> False.

  Lemma kron_check_spec bs : forall acc, NoDup acc ->
    kron_check set_iter (SLocal acc) (map (bsup set_iter) bs) = true <->
    (ForallOrdPairs disjoint_blocks bs /\
     Forall (fun b => forall q, In q acc -> In q (qubits b) -> False) bs).
  Proof.
    induction bs as [|b bs IH]; intros acc Hn; simpl.
    - split; [intros _; split; constructor|reflexivity].
    - destruct (bsup_spec b) as (l & E & Hl & _). rewrite E.
      destruct (qs_add_local set_iter Hs acc l) as (r & Er & Hr & Nr).
      rewrite Er. change (negb (support_eqb SGlobal (SLocal l))) with true. simpl andb.
      rewrite andb_true_iff, (qs_disjoint_spec acc l), IH by auto.
      split.
      + intros (Hd & Hp & Hf). split.
        * constructor; [|exact Hp]. eapply Forall_impl; [|exact Hf].
          intros c Hc q Hb Hq. apply (Hc q); [|exact Hq]. apply Hr. right. apply Hl. exact Hb.
        * constructor.
          -- intros q Ha Hb. apply (Hd q Ha). apply Hl; exact Hb.
          -- eapply Forall_impl; [|exact Hf]. intros c Hc q Ha Hq. apply (Hc q); [|exact Hq].
             apply Hr; left; exact Ha.
      + intros (Hp & Hf). inversion Hp as [|? ? Hpb Hp']; subst. inversion Hf as [|? ? Hfb Hf']; subst.
        split; [|split; [exact Hp'|]].
        * intros q Ha Hq. apply (Hfb q Ha). apply Hl; exact Hq.
        * rewrite Forall_forall in *. intros c Hc q Hq Hqc. apply Hr in Hq. destruct Hq as [Hq|Hq].
          -- apply (Hf' c Hc q Hq Hqc).
          -- apply (Hpb c Hc q); [apply Hl; exact Hq|exact Hqc].
  Qed.

  Lemma mk_kron_spec bs :
    (mk_kron set_iter bs = Some (BKron bs) <-> (bs <> [] /\ ForallOrdPairs disjoint_blocks bs)) /\
    (mk_kron set_iter bs = Some (BKron bs) \/ mk_kron set_iter bs = None).
  Proof.
    unfold mk_kron. destruct bs as [|b bs]; [split; [split; [discriminate|tauto]|auto]|].
    pose proof (kron_check_spec (b :: bs) [] (NoDup_nil _)) as H.
    destruct (kron_check set_iter (SLocal []) (map (bsup set_iter) (b :: bs))).
    - split; [|auto]. split; [|auto]. intros _. split; [discriminate|]. apply H; reflexivity.
    - split; [|auto]. split; [discriminate|]. intros (_ & Hp). 
      assert (false = true) by (apply H; split; [exact Hp|]; apply Forall_forall; intros ? ? ? []).
      discriminate.
  Qed.

  Lemma max_plus1_spec l : (forall q, In q l -> (q < max_plus1 l)%nat) /\
    (l <> [] -> exists q, In q l /\ max_plus1 l = S q) /\ (l = [] -> max_plus1 l = 0%nat).
  Proof.
    destruct l as [|a l]; simpl max_plus1; [split; [intros ? []|split; [congruence|reflexivity]]|].
    change (Nat.max a (list_max l)) with (list_max (a :: l)).
    split; [|split; [|discriminate]].
    - intros q Hq. pose proof (proj1 (list_max_le (a :: l) _) (le_n _)) as H.
      rewrite Forall_forall in H. specialize (H q Hq). lia.
    - intros _. exists (list_max (a :: l)). split; [|reflexivity].
      clear. revert a. induction l as [|b l IH]; intro a; [left; simpl; lia|].
      specialize (IH b). simpl in *. destruct (Nat.max_spec a (Nat.max b (list_max l))) as [[H1 H2]|[H1 H2]].
      + rewrite H2. right. exact IH.
      + left. lia.
  Qed.
End WithSetOrder.
