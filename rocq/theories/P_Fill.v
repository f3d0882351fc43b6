(** C10: fill_identities. *)
From Coq Require Import String Reals List Arith Bool Lia Lra FunctionalExtensionality Permutation.
From Coquelicot Require Import Coquelicot.
From Coq Require Import List.
From Verif Require Import S_Sets S_Ops M_QubitSupport M_Block S_Den L_Ops L_Den L_Loc M_BlockOps L_Support M_Tensor L_Tensor S_Transpile M_Transpile L_Transpile M_Fill P_Dagger P_ChainOps.
Import ListNotations.
Open Scope R_scope.
Open Scope C_scope.

Lemma disj_sym a b : disjoint_blocks a b -> disjoint_blocks b a.
Proof. intros H q Ha Hb. exact (H q Hb Ha). Qed.

Lemma fop_perm {A} (R : A -> A -> Prop) l l' : (forall a b, R a b -> R b a) -> Permutation l l' ->
  ForallOrdPairs R l -> ForallOrdPairs R l'.
Proof.
  intros HR. induction 1 as [|x l l' HP IH|x y l|l l' l'' HP1 IH1 HP2 IH2]; intros H; auto.
  - inversion H as [|? ? H1 H2]; subst. constructor; [|auto]. eapply Permutation_Forall; eassumption.
  - inversion H as [|? ? H1 H2]; subst. inversion H2 as [|? ? H3 H4]; subst. inversion H1 as [|? ? H5 H6]; subst.
    constructor; [constructor; [apply HR; exact H5|exact H3]|constructor; [exact H6|exact H4]].
Qed.

Lemma kron_perm rho l l' : Permutation l l' -> ForallOrdPairs disjoint_blocks l -> dl rho l = dl rho l'.
Proof.
  induction 1 as [|x l l' HP IH|x y l|l l' l'' HP1 IH1 HP2 IH2]; intros H; auto.
  - inversion H; subst. unfold dl in *. cbn [map fseq fold_right]. unfold fseq in *. rewrite IH by assumption. reflexivity.
  - inversion H as [|? ? H1 H2]; subst. inversion H1 as [|? ? H3 H4]; subst. unfold dl, fseq. cbn [map fold_right].
    rewrite <- !seqop_assoc. f_equal. eapply loc_comm; [apply den_loc|apply den_loc|].
    intros q. apply H3.
  - rewrite IH1 by exact H. apply IH2. eapply fop_perm; [exact disj_sym|exact HP1|exact H].
Qed.

Lemma den_idb rho i : den rho (idb i) = idop.
Proof.
  cbn [den idb]. unfold gate1. rewrite <- (gate_bid [i]). apply gate_ext. intros r c Hr Hc.
  destruct r as [|[] [|]], c as [|[] [|]]; try discriminate; reflexivity.
Qed.

Lemma dl_ids rho l : (forall b, In b l -> den rho b = idop) -> dl rho l = idop.
Proof.
  intros H. unfold dl, fseq. induction l as [|b l IH]; [reflexivity|]. cbn [map fold_right].
  rewrite IH by auto using in_cons. rewrite (H b (or_introl eq_refl)). reflexivity.
Qed.
Lemma dl_app rho l1 l2 : dl rho (l1 ++ l2) = seqop (dl rho l1) (dl rho l2).
Proof.
  unfold dl, fseq. induction l1 as [|b l IH]; [reflexivity|]. cbn [map app fold_right]. rewrite IH. apply seqop_assoc.
Qed.
Lemma dl_cons rho b l : dl rho (b :: l) = seqop (den rho b) (dl rho l).
Proof. reflexivity. Qed.

Section Fill.
  Variable si : list nat -> list nat.
  Hypothesis Hs : set_order si.

  Lemma in_sup b q : In q (sup si b) <-> In q (qubits b).
  Proof. apply in_bsup. exact Hs. Qed.

  Lemma ins_sup_perm b l : Permutation (ins_sup si b l) (b :: l).
  Proof.
    induction l as [|c l IH]; simpl; [apply Permutation_refl|].
    destruct (lex_leb (sup si b) (sup si c)); [apply Permutation_refl|].
    eapply perm_trans; [apply perm_skip, IH|apply perm_swap].
  Qed.
  Lemma sort_sup_perm l : Permutation (sort_sup si l) l.
  Proof.
    induction l as [|b l IH]; simpl; [constructor|]. eapply perm_trans; [apply ins_sup_perm|]. constructor. exact IH.
  Qed.

  Lemma in_set_diff a b q : In q (set_diff si a b) <-> In q a /\ ~ In q b.
  Proof.
    unfold set_diff. destruct (Hs (filter (fun q => negb (existsb (Nat.eqb q) b)) a)) as [_ H]. rewrite H, filter_In.
    rewrite negb_true_iff. split; intros [H1 H2]; split; try exact H1.
    - intros Hb. assert (existsb (Nat.eqb q) b = true) by (apply existsb_exists; exists q; split; [exact Hb|apply Nat.eqb_refl]). congruence.
    - destruct (existsb (Nat.eqb q) b) eqn:E; [|reflexivity]. apply existsb_exists in E as (x & Hx & Ex).
      apply Nat.eqb_eq in Ex. subst. contradiction.
  Qed.
  Lemma nodup_set_diff a b : NoDup (set_diff si a b).
  Proof. apply Hs. Qed.
  Lemma in_rng s e q : In q (rng s e) <-> (s <= q <= e)%nat.
  Proof. unfold rng. rewrite in_seq. lia. Qed.

  Lemma minmax_spec l : match minmax l with
    | None => l = []
    | Some (lo, hi) => In lo l /\ In hi l /\ forall q, In q l -> (lo <= q <= hi)%nat
    end.
  Proof.
    destruct l as [|a l]; simpl; [reflexivity|].
    assert (H : forall l x y, (x <= y)%nat -> let lo := fold_left Nat.min l x in let hi := fold_left Nat.max l y in
      (In lo (x :: l)) /\ (In hi (y :: l)) /\ (lo <= x)%nat /\ (y <= hi)%nat /\ forall q, In q l -> (lo <= q <= hi)%nat).
    { clear. induction l as [|b l IH]; intros x y Hxy; simpl.
      - repeat split; auto; lia.
      - destruct (IH (Nat.min x b) (Nat.max y b) ltac:(lia)) as (H1 & H2 & H3 & H4 & H5). simpl in *.
        repeat split; try lia.
        + destruct H1 as [H1|H1]; [|tauto]. destruct (Nat.min_spec x b) as [[_ E]|[_ E]]; rewrite E in *; auto.
        + destruct H2 as [H2|H2]; [|tauto]. destruct (Nat.max_spec y b) as [[_ E]|[_ E]]; rewrite E in *; auto.
        + destruct H as [<-|H]; [lia|apply H5, H].
        + destruct H as [<-|H]; [lia|apply H5, H]. }
    destruct (H l a a (le_n a)) as (H1 & H2 & H3 & H4 & H5). simpl in *.
    split; [exact H1|]. split; [exact H2|]. intros q [<-|Hq]; [lia|apply H5, Hq].
  Qed.

  Lemma mk_kron_sorted l y : mk_kron si (sort_sup si l) = Some y ->
    (forall rho, den rho y = dl rho l) /\ (forall q, In q (qubits y) <-> In q (flat_map qubits l)) /\
    y = BKron (sort_sup si l) /\ ForallOrdPairs disjoint_blocks l.
  Proof.
    intros H. destruct (construct_inv si Hs KKron _ _ H) as [E1 E2]. destruct (E2 eq_refl) as [_ HD].
    cbn [comp] in E1. subst y.
    assert (HD' : ForallOrdPairs disjoint_blocks l) by (eapply fop_perm; [exact disj_sym|apply sort_sup_perm|exact HD]).
    split; [|split; [|split; [reflexivity|exact HD']]].
    - intros rho. rewrite den_kron. apply kron_perm; [apply sort_sup_perm|exact HD].
    - intros q. cbn [qubits]. rewrite !in_flat_map. split; intros (x & Hx & Hq); exists x; split; auto;
        eapply Permutation_in; [apply sort_sup_perm|exact Hx|symmetry; apply sort_sup_perm|exact Hx].
  Qed.

  Lemma osequence_F2 {A B} (f : A -> option B) l l' : osequence (map f l) = Some l' -> Forall2 (fun a b => f a = Some b) l l'.
  Proof.
    intros H. apply osequence_some in H. revert l' H. induction l as [|a l IH]; intros [|b l'] H; try discriminate; constructor.
    - simpl in H. injection H as H _. exact H.
    - apply IH. simpl in H. injection H as _ H. exact H.
  Qed.

  Definition fill_prim (b : block) (s e : nat) (pad : nat -> block) : option block :=
    if tuple_eqb (sup si b) (rng s e) then Some b
    else mk_kron si (sort_sup si (b :: map pad (set_diff si (rng s e) (sup si b)))).
  Lemma fill_leaf b s e : kind_of b = None ->
    exists pad, fill si b s e = fill_prim b s e pad /\ forall i, (forall rho, den rho (pad i) = idop) /\ (forall q, In q (qubits (pad i)) <-> q = i).
  Proof.
    intros Hk.
    assert (H1 : forall i, (forall rho, den rho (idb i) = idop) /\ (forall q, In q (qubits (idb i)) <-> q = i)).
    { intros i. split; [intros; apply den_idb|]. intros q. simpl. intuition. }
    assert (H2 : forall i, (forall rho, den rho (BChain [idb i; idb i]) = idop) /\ (forall q, In q (qubits (BChain [idb i; idb i])) <-> q = i)).
    { intros i. split; [intros; rewrite den_chain; apply dl_ids; intros b' [<-|[<-|[]]]; apply den_idb|]. intros q. simpl. intuition. }
    destruct b; try discriminate; try (exists idb; split; [reflexivity|exact H1]).
    exists (fun i => BChain [idb i; idb i]). split; [reflexivity|exact H2].
  Qed.

  Lemma fill_comp (k : kind) bs s e : k <> KKron -> fill si (comp k bs) s e = omap (comp k) (osequence (map (fun x => fill si x s e) bs)).
  Proof. destruct k; intros H; try congruence; reflexivity. Qed.

  Lemma append_ids_inv L b z : append_ids si L b = Some z -> (forall rho, den rho z = den rho b) /\
    (forall q, In q (qubits z) -> exists a c, In a (qubits b) /\ In c (qubits b) /\ (a <= q <= c)%nat) /\
    (forall q, In q (qubits b) -> In q (qubits z)).
  Proof.
    unfold append_ids. pose proof (minmax_spec (sup si b)) as H. destruct (minmax (sup si b)) as [[lo hi]|]; [|discriminate].
    cbn [obind fst snd]. intros E. injection E as <-. destruct H as (H1 & H2 & H3). split; [|split].
    - intros rho. rewrite den_chain, dl_cons, dl_ids, seqop_id_r; [reflexivity|].
      intros x Hx. apply in_flat_map in Hx as (i & _ & Hx). apply repeat_spec in Hx. subst. apply den_idb.
    - intros q. cbn [qubits flat_map]. rewrite in_app_iff. intros [Hq|Hq].
      + exists q, q. auto.
      + apply in_flat_map in Hq as (x & Hx & Hq). apply in_flat_map in Hx as (i & Hi & Hx). apply repeat_spec in Hx. subst.
        simpl in Hq. destruct Hq as [<-|[]]. apply in_seq in Hi. exists lo, hi. rewrite <- !in_sup. split; [exact H1|]. split; [exact H2|lia].
    - intros q Hq. cbn [qubits flat_map]. apply in_app_iff. left. exact Hq.
  Qed.

  Lemma den_id_chain rho L i : den rho (id_chain L i) = idop.
  Proof. unfold id_chain. rewrite den_chain. apply dl_ids. intros b Hb. apply repeat_spec in Hb. subst. apply den_idb. Qed.

  Lemma fill_kron_inv bs s e y : fill si (BKron bs) s e = Some y ->
    exists ys zs, 
      Forall2 (fun x y => exists lo hi, minmax (sup si x) = Some (lo, hi) /\ fill si x lo hi = Some y) bs ys /\
      Forall2 (fun y z => append_ids si (list_max (map blen ys)) y = Some z) ys zs /\
      mk_kron si (sort_sup si (zs ++ map (id_chain (list_max (map blen ys))) (set_diff si (rng s e) (sup si (BKron bs))))) = Some y.
  Proof.
    cbn [fill]. intros H.
    destruct (osequence _) as [ys|] eqn:E1; [|discriminate]. cbn [obind] in H.
    destruct (osequence (map (append_ids si (list_max (map blen ys))) ys)) as [zs|] eqn:E2; [|discriminate]. cbn [obind] in H.
    exists ys, zs. split; [|split; [|exact H]].
    - apply osequence_F2 in E1. clear -E1. induction E1 as [|x z bs ys Hx F IH]; constructor; [|exact IH].
      destruct (minmax (sup si x)) as [[lo hi]|]; [|discriminate]. exists lo, hi. auto.
    - apply osequence_F2 in E2. exact E2.
  Qed.

  Lemma fill_den b : forall s e y, fill si b s e = Some y -> forall rho, den rho y = den rho b.
  Proof.
    induction b as [k bs IH|b e0 IH|b Hk Hsc] using skel_ind; intros s e y Hy rho.
    - destruct (match k with KKron => true | _ => false end) eqn:Ek.
      + destruct k; try discriminate. cbn [comp] in *. apply fill_kron_inv in Hy as (ys & zs & F1 & F2 & Hy).
        destruct (mk_kron_sorted _ _ Hy) as (HD & _). rewrite HD, dl_app, den_kron.
        rewrite (dl_ids rho (map _ _)), seqop_id_r.
        2:{ intros x Hx. apply in_map_iff in Hx as (i & <- & _). apply den_id_chain. }
        clear -F1 F2 IH Hs. set (L := list_max (map blen ys)) in F2. clearbody L. unfold dl. f_equal.
        revert zs F2. induction F1 as [|x z bs ys (lo & hi & _ & Hx) F1 IHF]; intros zs F2; inversion F2 as [|? w ? zs' Hw F2']; subst; [reflexivity|].
        inversion IH as [|? ? IHx IHr]; subst. cbn [map].
        destruct (append_ids_inv _ _ _ Hw) as (Hd & _). rewrite Hd, (IHx _ _ _ Hx rho). f_equal. apply IHF; assumption.
      + rewrite fill_comp in Hy by (destruct k; discriminate). destruct (osequence _) as [ys|] eqn:E1; [|discriminate]. cbn [omap obind] in Hy.
        injection Hy as <-. apply osequence_F2 in E1. rewrite !den_comp. clear -E1 IH.
        induction E1 as [|x z bs ys Hx F1 IHF]; [reflexivity|]. inversion IH as [|? ? IHx IHr]; subst.
        rewrite !dcomp_cons, IHF by assumption. f_equal. eapply IHx; eassumption.
    - destruct (fill_leaf (BScale b e0) s e eq_refl) as (pad & E & HP). rewrite E in Hy. unfold fill_prim in Hy.
      destruct (tuple_eqb _ _); [injection Hy as <-; reflexivity|].
      destruct (mk_kron_sorted _ _ Hy) as (HD & _). rewrite HD, dl_cons, dl_ids, seqop_id_r; [reflexivity|].
      intros x Hx. apply in_map_iff in Hx as (i & <- & _). apply HP.
    - destruct (fill_leaf b s e Hk) as (pad & E & HP). rewrite E in Hy. unfold fill_prim in Hy.
      destruct (tuple_eqb _ _); [injection Hy as <-; reflexivity|].
      destruct (mk_kron_sorted _ _ Hy) as (HD & _). rewrite HD, dl_cons, dl_ids, seqop_id_r; [reflexivity|].
      intros x Hx. apply in_map_iff in Hx as (i & <- & _). apply HP.
  Qed.

  Lemma fill_prim_qubits b s e pad y : (forall i, (forall rho, den rho (pad i) = idop) /\ (forall q, In q (qubits (pad i)) <-> q = i)) ->
    (forall q, In q (qubits b) -> (s <= q <= e)%nat) -> fill_prim b s e pad = Some y ->
    forall q, In q (qubits y) <-> (s <= q <= e)%nat.
  Proof.
    intros HP Hb Hy q. unfold fill_prim, tuple_eqb in Hy. destruct (list_eq_dec Nat.eq_dec (sup si b) (rng s e)) as [E|_].
    - injection Hy as <-. rewrite <- in_sup, E. apply in_rng.
    - destruct (mk_kron_sorted _ _ Hy) as (_ & HQ & _). rewrite HQ. cbn [flat_map]. rewrite in_app_iff, in_flat_map. split.
      + intros [Hq|(x & Hx & Hq)]; [auto|]. apply in_map_iff in Hx as (i & <- & Hi). apply HP in Hq. subst.
        apply in_set_diff in Hi as [Hi _]. apply in_rng. exact Hi.
      + intros Hq. destruct (in_dec Nat.eq_dec q (qubits b)) as [H|H]; [left; exact H|]. right.
        exists (pad q). split; [|apply HP; reflexivity]. apply in_map. apply in_set_diff. rewrite in_sup. split; [apply in_rng; exact Hq|exact H].
  Qed.

  Lemma list_max_ge l x : In x l -> (x <= list_max l)%nat.
  Proof. induction l as [|a l IH]; simpl; [tauto|]. intros [<-|H]; [lia|]. specialize (IH H). unfold list_max in *. lia. Qed.

  Lemma fill_qubits b : forall s e y, nonempty_composites b -> (s <= e)%nat -> (forall q, In q (qubits b) -> (s <= q <= e)%nat) -> fill si b s e = Some y ->
    forall q, In q (qubits y) <-> (s <= q <= e)%nat.
  Proof.
    induction b as [k bs IH|b e0 IH|b Hk Hsc] using skel_ind; intros s e y Hne Hse Hb Hy q.
    - destruct (match k with KKron => true | _ => false end) eqn:Ek.
      + destruct k; try discriminate. cbn [comp] in *. simpl in Hne. destruct Hne as [Hbs Hne]. apply all_forall in Hne.
        apply fill_kron_inv in Hy as (ys & zs & F1 & F2 & Hy).
        destruct (mk_kron_sorted _ _ Hy) as (_ & HQ & _ & _).
        set (L := list_max (map blen ys)) in *.
        (* every child is filled to its own hull *)
        assert (HF1 : Forall2 (fun x z => exists lo hi, In lo (qubits x) /\ In hi (qubits x) /\ (lo <= hi)%nat /\
             (forall q, In q (qubits x) -> (lo <= q <= hi)%nat) /\ (forall q, In q (qubits z) <-> (lo <= q <= hi)%nat)) bs ys).
        { clear -F1 IH Hs Hne. induction F1 as [|x z bs ys (lo & hi & Hm & Hx) F1 IHF]; [constructor|].
          inversion IH as [|? ? IHx IHr]; subst. inversion Hne as [|? ? Nx Nr]; subst. constructor; [|apply IHF; assumption].
          pose proof (minmax_spec (sup si x)) as HM. rewrite Hm in HM. destruct HM as (M1 & M2 & M3).
          exists lo, hi. split; [apply in_sup, M1|]. split; [apply in_sup, M2|]. split; [apply (M3 hi M2)|].
          assert (M4 : forall q, In q (qubits x) -> (lo <= q <= hi)%nat) by (intros q Hq; apply M3, in_sup, Hq).
          split; [exact M4|]. apply (IHx lo hi z Nx); [apply (M3 hi M2)|exact M4|exact Hx]. }
        assert (HL : (1 <= L)%nat).
        { inversion HF1 as [E|x z bs' ys' (lo & hi & G1 & G2 & G3 & G4 & G5) _ E1 E2]; subst; [congruence|].
          assert (Hz : (1 <= blen z)%nat).
          { destruct z as [| | | | | | | | |l| | | |]; simpl; try lia. destruct l; simpl; [|lia].
            assert (In lo (qubits (BChain []))) as [] by (apply G5; lia). }
          unfold L. pose proof (list_max_ge (map blen (z :: ys')) (blen z) (or_introl eq_refl)). lia. }
        rewrite HQ, flat_map_app, in_app_iff. split.
        * intros [Hq|Hq].
          -- apply in_flat_map in Hq as (w & Hw & Hq).
             assert (exists x lo hi, In x bs /\ In lo (qubits x) /\ In hi (qubits x) /\ (lo <= q <= hi)%nat) as (x & lo & hi & Hx & Hlo & Hhi & Hr).
             { clear -HF1 F2 Hw Hq Hs. clearbody L. revert zs F2 Hw. induction HF1 as [|x z bs ys (lo & hi & G1 & G2 & G3 & G4 & G5) F1 IHF]; intros zs F2 Hw;
                 inversion F2 as [|? w' ? zs' Hw' F2']; subst; [destruct Hw|]. destruct Hw as [<-|Hw].
               - destruct (append_ids_inv _ _ _ Hw') as (_ & A & _). destruct (A q Hq) as (a & c & Ha & Hc & Hac).
                 apply G5 in Ha. apply G5 in Hc. exists x, lo, hi. repeat split; auto using in_eq; lia.
               - destruct (IHF zs' F2' Hw) as (x' & lo' & hi' & Hx' & H'). exists x', lo', hi'. split; [right; exact Hx'|exact H']. }
             assert (In lo (flat_map qubits bs)) as H1 by (apply in_flat_map; eauto).
             assert (In hi (flat_map qubits bs)) as H2 by (apply in_flat_map; eauto).
             apply Hb in H1. apply Hb in H2. lia.
          -- apply in_flat_map in Hq as (w & Hw & Hq). apply in_map_iff in Hw as (i & <- & Hi).
             unfold id_chain in Hq. simpl in Hq. apply in_flat_map in Hq as (v & Hv & Hq). apply repeat_spec in Hv. subst v.
             destruct Hq as [<-|[]]. apply in_set_diff in Hi as [Hi _]. apply in_rng. exact Hi.
        * intros Hq. destruct (in_dec Nat.eq_dec q (flat_map qubits bs)) as [Hin|Hin].
          -- left. apply in_flat_map in Hin as (x & Hx & Hqx). clear -HF1 F2 Hx Hqx Hs. clearbody L. revert zs F2.
             induction HF1 as [|x' z bs ys (lo & hi & G1 & G2 & G3 & G4 & G5) F1 IHF]; intros zs F2;
               inversion F2 as [|? w' ? zs' Hw' F2']; subst; [destruct Hx|]. cbn [flat_map]. apply in_app_iff. destruct Hx as [<-|Hx].
             ++ left. destruct (append_ids_inv _ _ _ Hw') as (_ & _ & A). apply A, G5, G4, Hqx.
             ++ right. apply IHF; assumption.
          -- right. apply in_flat_map. exists (id_chain L q). split.
             ++ apply in_map, in_set_diff. rewrite in_sup. split; [apply in_rng; exact Hq|exact Hin].
             ++ unfold id_chain. destruct L; [lia|]. simpl. left; reflexivity.
      + rewrite fill_comp in Hy by (destruct k; discriminate). destruct (osequence _) as [ys|] eqn:E1; [|discriminate]. cbn [omap obind] in Hy.
        injection Hy as <-. apply osequence_F2 in E1. rewrite qubits_comp in *.
        assert (Hne2 : bs <> [] /\ Forall nonempty_composites bs) by (destruct k; try discriminate; destruct Hne as [H1 H2]; apply all_forall in H2; auto).
        clear Hne. destruct Hne2 as [Hbs Hne].
        assert (HF : Forall2 (fun x z => forall q, In q (qubits z) <-> (s <= q <= e)%nat) bs ys).
        { clear Hbs. induction E1 as [|x z bs ys Hx F1 IHF]; [constructor|]. inversion IH as [|? ? IHx IHr]; subst. inversion Hne as [|? ? Nx Nr]; subst.
          constructor; [|apply IHF; auto; intros; apply Hb; cbn [flat_map]; apply in_app_iff; auto].
          intros q'. apply (IHx s e z Nx Hse); [|exact Hx]. intros q0 Hq0. apply Hb. cbn [flat_map]. apply in_app_iff. auto. }
        rewrite in_flat_map. split.
        * intros (z & Hz & Hq). clear -HF Hz Hq. induction HF as [|x z' bs ys H F IHF]; [destruct Hz|].
          destruct Hz as [<-|Hz]; [apply H, Hq|auto].
        * intros Hq. inversion HF as [|x z' bs' ys' H F]; subst; [congruence|]. exists z'. split; [left; reflexivity|]. apply H, Hq.
    - destruct (fill_leaf (BScale b e0) s e eq_refl) as (pad & E & HP). rewrite E in Hy. eapply fill_prim_qubits; eassumption.
    - destruct (fill_leaf b s e Hk) as (pad & E & HP). rewrite E in Hy. eapply fill_prim_qubits; eassumption.
  Qed.

  Lemma fill_prim_total b s e pad : (forall i, (forall rho, den rho (pad i) = idop) /\ (forall q, In q (qubits (pad i)) <-> q = i)) ->
    exists y, fill_prim b s e pad = Some y.
  Proof.
    intros HP. unfold fill_prim. destruct (tuple_eqb _ _); [eauto|].
    exists (BKron (sort_sup si (b :: map pad (set_diff si (rng s e) (sup si b))))). apply (construct_ok si Hs KKron). intros _. split.
    - intros E. assert (HP' := sort_sup_perm (b :: map pad (set_diff si (rng s e) (sup si b)))). rewrite E in HP'.
      apply Permutation_nil in HP'. discriminate.
    - eapply fop_perm; [exact disj_sym|symmetry; apply sort_sup_perm|]. constructor.
      + apply Forall_forall. intros x Hx q Hq1 Hq2. apply in_map_iff in Hx as (i & <- & Hi). apply HP in Hq2. subst.
        apply in_set_diff in Hi as [_ Hi]. apply Hi, in_sup, Hq1.
      + pose proof (nodup_set_diff (rng s e) (sup si b)) as HN. induction HN as [|i l Hi HN IH]; [constructor|]. cbn [map]. constructor; [|exact IH].
        apply Forall_forall. intros x Hx q Hq1 Hq2. apply in_map_iff in Hx as (j & <- & Hj). apply HP in Hq1. apply HP in Hq2. subst. contradiction.
  Qed.

  Lemma fill_total b : forall s e, krons_ok b -> nonempty_composites b -> kron_parts_intervals b -> exists y, fill si b s e = Some y.
  Proof.
    induction b as [k bs IH|b e0 IH|b Hk Hsc] using skel_ind; intros s e Hok Hne Hint.
    - assert (Hne2 : bs <> [] /\ Forall nonempty_composites bs) by (destruct k; destruct Hne as [H1 H2]; apply all_forall in H2; auto).
      clear Hne. destruct Hne2 as [Hbs Hne]. apply krons_ok_comp in Hok as [Hk Hok].
      destruct (match k with KKron => true | _ => false end) eqn:Ek.
      + destruct k; try discriminate. cbn [comp] in *. destruct Hint as [Hi1 Hi2]. apply all_forall in Hi2.
        destruct (Hk eq_refl) as [_ HD].
        destruct (osequence_map_ex (fun x => obind (minmax (sup si x)) (fun mm => fill si x (fst mm) (snd mm))) bs
            (fun x z => forall q, In q (qubits z) <-> In q (qubits x))) as (ys & E1 & F1).
        { rewrite Forall_forall in *. intros x Hx. specialize (Hi1 x Hx). destruct Hi1 as [J1 J2].
          pose proof (minmax_spec (sup si x)) as HM. destruct (minmax (sup si x)) as [[lo hi]|].
          - destruct HM as (M1 & M2 & M3). cbn [obind fst snd].
            destruct (IH x Hx lo hi (Hok x Hx) (Hne x Hx) (Hi2 x Hx)) as (z & Hz). exists z. split; [exact Hz|].
            assert (M4 : forall q, In q (qubits x) -> (lo <= q <= hi)%nat) by (intros q Hq; apply M3, in_sup, Hq).
            pose proof (fill_qubits x lo hi z (Hne x Hx) (proj2 (M3 lo M1)) M4 Hz) as HQ.
            intros q. rewrite HQ. split; [|apply M4]. intros Hq. apply in_sup in M1. apply in_sup in M2.
            exact (J2 lo hi q M1 M2 Hq).
          - exfalso. destruct (qubits x) as [|q l] eqn:Eq; [congruence|].
            assert (In q (sup si x)) as Hin by (apply in_sup; rewrite Eq; left; reflexivity). rewrite HM in Hin. destruct Hin. }
        cbn [fill]. rewrite E1. cbn [obind]. set (L := list_max (map blen ys)).
        destruct (osequence_map_ex (append_ids si L) ys (fun y z => forall q, In q (qubits z) -> exists a c, In a (qubits y) /\ In c (qubits y) /\ (a <= q <= c)%nat)) as (zs & E2 & F2).
        { apply Forall_forall. intros z Hz.
          assert (exists q, In q (qubits z)) as (q & Hq).
          { clear -F1 Hz Hi1. induction F1 as [|x z' bs ys H F IHF]; [destruct Hz|]. inversion Hi1 as [|? ? Hx Hr]; subst. destruct Hz as [->|Hz]; [|auto].
            destruct Hx as [Hx _]. destruct (qubits x) as [|q l] eqn:E; [congruence|]. exists q. apply H. left; reflexivity. }
          unfold append_ids. pose proof (minmax_spec (sup si z)) as HM. destruct (minmax (sup si z)) as [[lo hi]|] eqn:EM.
          - eexists. split; [reflexivity|]. apply (append_ids_inv L z). unfold append_ids. rewrite EM. reflexivity.
          - exfalso. apply in_sup in Hq. rewrite HM in Hq. destruct Hq. }
        rewrite E2. cbn [obind].
        (* each piece stays on the qubits of its block *)
        assert (F : Forall2 (fun x z => forall q, In q (qubits z) -> In q (qubits x)) bs zs).
        { clear -F1 F2 Hi1. revert zs F2. induction F1 as [|x z bs ys H F IHF]; intros zs F2; inversion F2 as [|? w ? zs' Hw F2']; subst; [constructor|].
          inversion Hi1 as [|? ? Hx Hr]; subst. constructor; [|apply IHF; assumption].
          intros q Hq. destruct (Hw q Hq) as (a & c & Ha & Hc & Hac). apply H in Ha. apply H in Hc. destruct Hx as [_ Hx]. exact (Hx a c q Ha Hc Hac). }
        eexists. apply (construct_ok si Hs KKron). intros _.
        set (l := zs ++ map (id_chain L) (set_diff si (rng s e) (sup si (BKron bs)))).
        split.
        * intros E. assert (HP' := sort_sup_perm l). rewrite E in HP'. apply Permutation_nil in HP'. unfold l in HP'. apply app_eq_nil in HP' as [Hz _].
          subst zs. inversion F; subst. congruence.
        * eapply fop_perm; [exact disj_sym|symmetry; apply sort_sup_perm|]. unfold l.
          assert (HA : ForallOrdPairs disjoint_blocks zs).
          { eapply fop_map; [|exact F|exact HD]. intros a a' c c' H1 H2 HR q Hq1 Hq2. apply (HR q); auto. }
          assert (HB : ForallOrdPairs disjoint_blocks (map (id_chain L) (set_diff si (rng s e) (sup si (BKron bs))))).
          { pose proof (nodup_set_diff (rng s e) (sup si (BKron bs))) as HN. induction HN as [|i l0 Hi HN IHN]; [constructor|]. cbn [map]. constructor; [|exact IHN].
            apply Forall_forall. intros x Hx q Hq1 Hq2. apply in_map_iff in Hx as (j & <- & Hj).
            unfold id_chain in *. simpl in Hq1, Hq2. apply in_flat_map in Hq1 as (v & Hv & Hq1). apply repeat_spec in Hv. subst v.
            apply in_flat_map in Hq2 as (v & Hv & Hq2). apply repeat_spec in Hv. subst v. simpl in *. intuition; subst; contradiction. }
          assert (HC : forall x z, In x zs -> In z (map (id_chain L) (set_diff si (rng s e) (sup si (BKron bs)))) -> disjoint_blocks x z).
          { intros x z Hx Hz q Hq1 Hq2. apply in_map_iff in Hz as (j & <- & Hj). unfold id_chain in Hq2. simpl in Hq2.
            apply in_flat_map in Hq2 as (v & Hv & Hq2). apply repeat_spec in Hv. subst v. destruct Hq2 as [<-|[]].
            apply in_set_diff in Hj as [_ Hj]. apply Hj, in_sup. simpl. clear -F Hx Hq1.
            induction F as [|x' z' bs zs H F IHF]; [destruct Hx|]. cbn [flat_map]. apply in_app_iff. destruct Hx as [->|Hx]; auto. }
          revert HA HC. generalize (map (id_chain L) (set_diff si (rng s e) (sup si (BKron bs)))) HB. clear. intros m HB HA HC.
          induction HA as [|x zs Hx HA IH]; [exact HB|]. cbn [app]. constructor.
          -- apply Forall_app. split; [exact Hx|]. apply Forall_forall. intros z Hz. apply HC; [left; reflexivity|exact Hz].
          -- apply IH. intros; apply HC; [right; assumption|assumption].
      + assert (Hint2 : Forall kron_parts_intervals bs) by (destruct k; try discriminate; apply all_forall in Hint; exact Hint).
        rewrite fill_comp by (destruct k; discriminate).
        destruct (osequence_map_ex (fun x => fill si x s e) bs (fun _ _ => True)) as (ys & E1 & _).
        { rewrite Forall_forall in *. intros x Hx. destruct (IH x Hx s e) as (z & Hz); auto. exists z. auto. }
        rewrite E1. eexists. reflexivity.
    - destruct (fill_leaf (BScale b e0) s e eq_refl) as (pad & E & HP). rewrite E. apply fill_prim_total. exact HP.
    - destruct (fill_leaf b s e Hk) as (pad & E & HP). rewrite E. apply fill_prim_total. exact HP.
  Qed.
End Fill.

(** Whenever fill_identities returns a block, it has the same operator and acts on every requested qubit. *)
Theorem C10_fill_identities : forall set_iter b s e y, set_order set_iter -> nonempty_composites b -> (s <= e)%nat ->
  (forall q, In q (qubits b) -> (s <= q <= e)%nat) -> fill set_iter b s e = Some y ->
  (forall rho, den rho y = den rho b) /\ (forall q, In q (qubits y) <-> (s <= q <= e)%nat).
Proof.
  intros si b s e y Hs Hne Hse Hb Hy. split.
  - eapply fill_den; eassumption.
  - eapply fill_qubits; eassumption.
Qed.

(** It does return one when the parts of every kron act on intervals of qubits. *)
Theorem C10_fill_identities_total : forall set_iter b s e, set_order set_iter ->
  krons_ok b -> nonempty_composites b -> kron_parts_intervals b -> exists y, fill set_iter b s e = Some y.
Proof. intros si b s e Hs. apply fill_total. exact Hs. Qed.

(** It raises an exception on valid blocks with a gap, such as kron(CNOT(0,2), X(1)). *)
Theorem C10_fill_identities_refuted : exists b, krons_ok b /\ nonempty_composites b /\
  (forall q, In q (qubits b) -> (0 <= q <= 2)%nat) /\ exists set_iter, set_order set_iter /\ fill set_iter b 0 2 = None.
Proof.
  exists (BKron [BCtrl [0%nat] (BPrim PX 2); BPrim PX 1]). split; [|split; [|split]].
  - simpl. repeat split; try discriminate; repeat constructor; simpl; intuition lia.
  - simpl. repeat split; discriminate.
  - simpl. intuition lia.
  - exists sorted_set. split; [exact sorted_set_order|reflexivity].
Qed.

(** The circuit-level pass. *)
Theorem C10_fill_circuit : forall set_iter n b, set_order set_iter ->
  (forall rho, den rho (fill_circuit set_iter n b) = den rho b) /\
  (forall q, In q (qubits (fill_circuit set_iter n b)) <-> In q (qubits b) \/ (q < n)%nat).
Proof.
  intros si n b Hs. unfold fill_circuit.
  assert (HD : forall q, In q (set_diff si (seq 0 n) (sup si b)) <-> (q < n)%nat /\ ~ In q (qubits b)).
  { intros q. rewrite (in_set_diff si Hs), in_seq, (in_sup si Hs). intuition lia. }
  destruct (set_diff si (seq 0 n) (sup si b)) as [|i l].
  - split; [reflexivity|]. intros q. split; [auto|]. intros [H|H]; [exact H|].
    destruct (in_dec Nat.eq_dec q (qubits b)); [assumption|]. exfalso. apply (HD q). auto.
  - split.
    + intros rho. rewrite den_chain, dl_cons, dl_ids, seqop_id_r; [reflexivity|]. intros x [<-|[]].
      rewrite den_chain. apply dl_ids. intros y Hy. apply in_map_iff in Hy as (j & <- & _). apply den_idb.
    + intros q. cbn [qubits flat_map]. rewrite app_nil_r, in_app_iff.
      assert (E : In q (flat_map qubits (map idb (i :: l))) <-> In q (i :: l)).
      { rewrite in_flat_map. split.
        - intros (x & Hx & Hq). apply in_map_iff in Hx as (j & <- & Hj). simpl in Hq. destruct Hq as [<-|[]]. exact Hj.
        - intros Hq. exists (idb q). split; [apply in_map; exact Hq|left; reflexivity]. }
      rewrite E, HD. destruct (in_dec Nat.eq_dec q (qubits b)); tauto.
Qed.

Example C10_witness : 
  let b := BChain [BKron [BCtrl [1%nat] (BPrim PX 2); BChain [BPrim PX 0; BPrim PH 0]]; BScale (BPrim PZ 1) (EVar "s")] in
  krons_ok b /\ nonempty_composites b /\ kron_parts_intervals b /\ (forall q, In q (qubits b) -> (0 <= q <= 3)%nat) /\
  exists y, fill sorted_set b 0 3 = Some y /\ y <> b.
Proof.
  split; [simpl; repeat split; try discriminate; repeat constructor; simpl; intuition lia|].
  split; [simpl; repeat split; discriminate|].
  split; [simpl; unfold interval; repeat (split || apply Forall_cons || apply Forall_nil); simpl; try discriminate; auto; intros; intuition lia|].
  split; [simpl; intuition lia|].
  eexists. split; [reflexivity|]. discriminate.
Qed.

Print Assumptions C10_fill_identities.
Print Assumptions C10_fill_identities_total.
Print Assumptions C10_fill_identities_refuted.
Print Assumptions C10_fill_circuit.
