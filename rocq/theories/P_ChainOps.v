(** C09: chain_single_qubit_ops. *)
From Coq Require Import String Reals List Arith Bool Lia Lra FunctionalExtensionality Permutation.
From Coquelicot Require Import Coquelicot.
From Coq Require Import List.
From Verif Require Import S_Sets S_Ops M_QubitSupport M_Block S_Den L_Ops L_Den L_Loc M_BlockOps L_Support M_Tensor L_Tensor S_Transpile M_Transpile L_Transpile M_Fill P_Dagger.
Import ListNotations.
Open Scope R_scope.
Open Scope C_scope.

Definition fseq (l : list Op) : Op := fold_right seqop idop l.

Lemma fseq_comm A l : (forall B, In B l -> seqop A B = seqop B A) -> seqop A (fseq l) = seqop (fseq l) A.
Proof.
  induction l as [|B l IH]; intros H; simpl.
  - rewrite seqop_id_l, seqop_id_r. reflexivity.
  - rewrite <- seqop_assoc, (H B (or_introl eq_refl)), !seqop_assoc, IH; auto using in_cons.
Qed.

(** (h1;t1);(h2;t2);... = (h1;h2;...);(t1;t2;...) when every t commutes with every h. *)
Lemma interchange {A} (h t : A -> Op) l :
  (forall a b, In a l -> In b l -> seqop (t a) (h b) = seqop (h b) (t a)) ->
  fseq (map (fun a => seqop (h a) (t a)) l) = seqop (fseq (map h l)) (fseq (map t l)).
Proof.
  induction l as [|a l IH]; intros H; [reflexivity|].
  simpl. rewrite IH by (intros; apply H; right; assumption). rewrite !seqop_assoc. f_equal.
  rewrite <- !seqop_assoc. f_equal. apply fseq_comm. intros B HB. apply in_map_iff in HB as (b & <- & Hb).
  apply H; [left; reflexivity|right; exact Hb].
Qed.

Definition dl rho (bs : list block) : Op := fseq (map (den rho) bs).
Lemma den_chain rho bs : den rho (BChain bs) = dl rho bs.
Proof. unfold dl, fseq. simpl. induction bs as [|b bs IH]; simpl; [reflexivity|]. rewrite IH. reflexivity. Qed.
Lemma den_kron rho bs : den rho (BKron bs) = dl rho bs.
Proof. apply den_chain. Qed.

Section Zip.
  Lemma set_it_out st ids i l : ~ In i ids -> forall j, In j ids -> set_it st i l j = st j.
  Proof. intros H j Hj. unfold set_it. destruct (Nat.eqb_spec j i); [subst; tauto|reflexivity]. Qed.

  Lemma zip_round_some ids : forall st, NoDup ids -> (forall i, In i ids -> st i <> []) ->
    exists st', zip_round ids st = Some (map (fun i => hd (idb 0) (st i)) ids, st') /\
                (forall i, In i ids -> st' i = tl (st i)) /\ (forall i, ~ In i ids -> st' i = st i).
  Proof.
    induction ids as [|i ids IH]; intros st Hn Hne; simpl.
    - exists st. split; [reflexivity|]. split; [intros ? []|auto].
    - inversion Hn as [|? ? Hi Hn']; subst. destruct (st i) as [|b l] eqn:E; [exfalso; apply (Hne i); [left; reflexivity|exact E]|].
      destruct (IH (set_it st i l) Hn') as (st' & E' & H1 & H2).
      { intros j Hj. rewrite (set_it_out st ids) by assumption. apply Hne. right; exact Hj. }
      exists st'. rewrite E'. cbn [obind fst snd]. split; [|split].
      + f_equal. f_equal. f_equal. apply map_ext_in. intros j Hj. rewrite (set_it_out st ids) by assumption. reflexivity.
      + intros j [<-|Hj].
        * rewrite H2 by exact Hi. unfold set_it. rewrite Nat.eqb_refl, E. reflexivity.
        * rewrite H1 by exact Hj. rewrite (set_it_out st ids) by assumption. reflexivity.
      + intros j Hj. rewrite H2 by (intros Hin; apply Hj; right; exact Hin). unfold set_it.
        destruct (Nat.eqb_spec j i); [subst; exfalso; apply Hj; left; reflexivity|reflexivity].
  Qed.
  Lemma zip_round_none i ids : forall st, st i = [] -> zip_round (i :: ids) st = None.
  Proof. intros st E. simpl. rewrite E. reflexivity. Qed.

  (** zip of distinct iterators, all with [L] elements left *)
  Lemma zip_loop_spec ids : NoDup ids -> ids <> [] -> forall L fuel st, (L < fuel)%nat ->
    (forall i, In i ids -> length (st i) = L) ->
    (forall x i, In i ids -> In x (st i) -> exists col, In col (zip_loop fuel ids st) /\ In x col) /\
    (forall col x, In col (zip_loop fuel ids st) -> In x col -> exists i, In i ids /\ In x (st i)) /\
    (L <> 0%nat -> zip_loop fuel ids st <> []) /\
    (ForallOrdPairs (fun c1 c2 => forall x y, In x c1 -> In y c2 -> disjoint_blocks x y) (zip_loop fuel ids st) ->
     forall rho, fseq (map (dl rho) (zip_loop fuel ids st)) = fseq (map (fun i => dl rho (st i)) ids)).
  Proof.
    intros Hn Hne. induction L as [|L IH]; intros fuel st Hf Hl; (destruct fuel as [|fuel]; [lia|]); cbn [zip_loop].
    - destruct ids as [|i ids]; [congruence|]. rewrite zip_round_none.
      2:{ apply length_zero_iff_nil. apply Hl. left; reflexivity. }
      split; [|split; [|split]].
      + intros x j Hj Hx. rewrite (proj1 (length_zero_iff_nil _) (Hl j Hj)) in Hx. destruct Hx.
      + intros col x [].
      + congruence.
      + intros _ rho. cbn [map fseq fold_right]. symmetry.
        assert (E : forall l, (forall j, In j l -> length (st j) = 0%nat) -> fseq (map (fun i => dl rho (st i)) l) = idop).
        { induction l as [|j l IHl]; intros H; [reflexivity|]. cbn [map fseq fold_right].
          fold (fseq (map (fun i => dl rho (st i)) l)). rewrite IHl by (intros; apply H; right; assumption).
          rewrite (proj1 (length_zero_iff_nil _) (H j (or_introl eq_refl))). reflexivity. }
        apply (E (i :: ids)). exact Hl.
    - destruct (zip_round_some ids st Hn) as (st' & E & H1 & H2).
      { intros i Hi E. specialize (Hl i Hi). rewrite E in Hl. discriminate. }
      rewrite E. cbn [fst snd].
      assert (Hl' : forall i, In i ids -> length (st' i) = L).
      { intros i Hi. rewrite H1 by exact Hi. specialize (Hl i Hi). destruct (st i); [discriminate|]. simpl in *. lia. }
      assert (Hht : forall i, In i ids -> st i = hd (idb 0) (st i) :: st' i).
      { intros i Hi. rewrite H1 by exact Hi. specialize (Hl i Hi). destruct (st i); [discriminate|reflexivity]. }
      destruct (IH fuel st' ltac:(lia) Hl') as (I1 & I2 & I3 & I4).
      split; [|split; [|split]].
      + intros x i Hi Hx. rewrite (Hht i Hi) in Hx. destruct Hx as [<-|Hx].
        * eexists. split; [left; reflexivity|]. apply in_map_iff. eauto.
        * destruct (I1 x i Hi Hx) as (col & Hc & Hxc). exists col. split; [right; exact Hc|exact Hxc].
      + intros col x [<-|Hc] Hx.
        * apply in_map_iff in Hx as (i & <- & Hi). exists i. split; [exact Hi|]. rewrite (Hht i Hi) at 2. left; reflexivity.
        * destruct (I2 col x Hc Hx) as (i & Hi & Hxi). exists i. split; [exact Hi|]. rewrite (Hht i Hi). right; exact Hxi.
      + discriminate.
      + intros HD rho. inversion HD as [|? ? Hc0 HD']; subst.
        cbn [map]. unfold fseq at 1. cbn [fold_right].
        change (fold_right seqop idop (map (dl rho) (zip_loop fuel ids st'))) with (fseq (map (dl rho) (zip_loop fuel ids st'))). rewrite (I4 HD' rho).
        unfold dl at 1. rewrite map_map.
        rewrite <- interchange.
        * f_equal. apply map_ext_in. intros i Hi. rewrite (Hht i Hi) at 2. reflexivity.
        * intros a b Ha Hb. symmetry. apply fseq_comm. intros B HB. apply in_map_iff in HB as (x & <- & Hx).
          destruct (I1 x a Ha Hx) as (col & Hcol & Hxc).
          eapply loc_comm; [apply den_loc|apply den_loc|]. rewrite Forall_forall in Hc0.
          intros q. apply (Hc0 col Hcol (hd (idb 0) (st b)) x); [|exact Hxc]. apply in_map_iff. eauto.
  Qed.

  Lemma fold_set_it ids : forall layers st, length ids = length layers -> NoDup ids ->
    let st' := fold_left (fun st p => set_it st (fst p) (children (snd p))) (combine ids layers) st in
    map st' ids = map children layers /\ (forall i, ~ In i ids -> st' i = st i).
  Proof.
    induction ids as [|i ids IH]; intros [|b layers] st Hl Hn; try discriminate; simpl.
    - split; [reflexivity|auto].
    - inversion Hn as [|? ? Hi Hn']; subst. injection Hl as Hl.
      destruct (IH layers (set_it st i (children b)) Hl Hn') as [H1 H2]. simpl in H1, H2. split.
      + rewrite H1. f_equal. rewrite H2 by exact Hi. unfold set_it. rewrite Nat.eqb_refl. reflexivity.
      + intros j Hj. rewrite H2 by tauto. unfold set_it. destruct (Nat.eqb_spec j i); [subst; tauto|reflexivity].
  Qed.
End Zip.

(** No two blocks of a list are the same Python object. *)
Definition distinct_objects (ident : list block -> list nat) : Prop :=
  forall l, length (ident l) = length l /\ NoDup (ident l).

Section ChainOps.
  Variable si : list nat -> list nat.
  Hypothesis Hs : set_order si.
  Variable ident : list block -> list nat.
  Hypothesis Hid : distinct_objects ident.

  Lemma nodup_all_eq (l : list nat) : length (nodup Nat.eq_dec l) = 1%nat -> exists L, forall x, In x l -> x = L.
  Proof.
    intros H. destruct (nodup Nat.eq_dec l) as [|L [|]] eqn:E; try discriminate. exists L.
    intros x Hx. apply (nodup_In Nat.eq_dec) in Hx. rewrite E in Hx. destruct Hx as [->|[]]; reflexivity.
  Qed.

  Lemma chain_ops_match bs : is_chain_of_primitivekrons si (BChain bs) = true ->
    (forall rho, den rho (BChain bs) = fseq (map (fun b => dl rho (children b)) bs)) /\ bs <> [] /\
    exists L, forall b, In b bs -> length (children b) = L /\ plen b = L /\ is_kron b.
  Proof.
    unfold is_chain_of_primitivekrons. rewrite !andb_true_iff. intros (H1 & H2 & H3).
    apply Nat.eqb_eq in H2. apply Nat.ltb_lt in H1. rewrite forallb_forall in H3.
    assert (HK : forall b, In b bs -> is_kron b).
    { intros b Hb. specialize (H3 b Hb). apply andb_true_iff in H3 as [H3 _].
      destruct b; try discriminate; exact I. }
    split; [|split].
    - intros rho. rewrite den_chain. unfold dl at 1. f_equal. apply map_ext_in. intros b Hb.
      specialize (HK b Hb). destruct b; try destruct HK. apply den_kron.
    - intros ->. simpl in H1. lia.
    - destruct (nodup_all_eq _ H2) as [L HL]. exists L. intros b Hb.
      assert (E : plen b = L) by (apply HL, in_map, Hb). specialize (HK b Hb). destruct b; try destruct HK.
      simpl in *. auto.
  Qed.

  Lemma list_sum_ge (l : list nat) x : In x l -> (x <= list_sum l)%nat.
  Proof. induction l as [|a l IH]; simpl; [tauto|]. intros [<-|H]; [lia|]. specialize (IH H). unfold list_sum in *. lia. Qed.

  Lemma chain_ops_zip bs y : krons_ok (BChain bs) -> is_chain_of_primitivekrons si (BChain bs) = true ->
    mk_kron si (map BChain (zip_layers (ident bs) bs)) = Some y ->
    (forall rho, den rho y = den rho (BChain bs)) /\
    (forall q, In q (qubits y) <-> In q (flat_map qubits bs)) /\ krons_ok y.
  Proof.
    intros Hok HM Hy. destruct (chain_ops_match bs HM) as (Hd & Hne & L & HL).
    destruct (Hid bs) as [Hlen Hnd].
    assert (Hy' : y = BKron (map BChain (zip_layers (ident bs) bs)) /\ kron_ok_list (map BChain (zip_layers (ident bs) bs))).
    { destruct (construct_inv si Hs KKron _ _ Hy) as [E1 E2]. split; [exact E1|apply E2; reflexivity]. }
    destruct Hy' as [-> [_ Hdis]].
    unfold zip_layers in *.
    set (st := fold_left (fun st p => set_it st (fst p) (children (snd p))) (combine (ident bs) bs) (fun _ => [])) in *.
    destruct (fold_set_it (ident bs) bs (fun _ => []) Hlen Hnd) as [Hst _]. fold st in Hst.
    set (fuel := S (list_sum (map plen bs))) in *.
    assert (Hfuel : (L < fuel)%nat).
    { destruct bs as [|b bs']; [congruence|]. destruct (HL b (or_introl eq_refl)) as (_ & HP & _).
      unfold fuel. pose proof (list_sum_ge (map plen (b :: bs')) L). rewrite <- HP in *.
      assert (In (plen b) (map plen (b :: bs'))) as Hi by (left; reflexivity). specialize (H Hi). lia. }
    assert (Hlst : forall i, In i (ident bs) -> length (st i) = L).
    { intros i Hi. assert (Hin : In (st i) (map st (ident bs))) by (apply in_map, Hi). rewrite Hst in Hin.
      apply in_map_iff in Hin as (b & <- & Hb). apply HL, Hb. }
    assert (Hids : ident bs <> []).
    { intros E. rewrite E in Hlen. destruct bs; [congruence|discriminate]. }
    destruct (zip_loop_spec (ident bs) Hnd Hids L fuel st Hfuel Hlst) as (Z1 & Z2 & _ & Z4).
    split; [|split].
    - intros rho. rewrite den_kron, Hd. unfold dl at 1. rewrite map_map.
      transitivity (fseq (map (dl rho) (zip_loop fuel (ident bs) st))).
      { f_equal. apply map_ext. intros col. apply den_chain. }
      rewrite Z4.
      + f_equal. rewrite <- (map_map st (dl rho)), Hst, map_map. reflexivity.
      + clear -Hdis. induction (zip_loop fuel (ident bs) st) as [|c cs IH]; [constructor|].
        simpl in Hdis. inversion Hdis as [|? ? H1 H2]; subst. constructor; [|apply IH; exact H2].
        rewrite Forall_forall in *. intros c2 Hc2 x z Hx Hz q Hq1 Hq2.
        apply (H1 (BChain c2) (in_map BChain _ _ Hc2) q); simpl; apply in_flat_map; eauto.
    - intros q. simpl. rewrite !in_flat_map. split.
      + intros (cb & Hcb & Hq). apply in_map_iff in Hcb as (col & <- & Hcol). simpl in Hq.
        apply in_flat_map in Hq as (x & Hx & Hq). destruct (Z2 col x Hcol Hx) as (i & Hi & Hxi).
        assert (Hin : In (st i) (map st (ident bs))) by (apply in_map, Hi). rewrite Hst in Hin.
        apply in_map_iff in Hin as (b & Eb & Hb). exists b. split; [exact Hb|].
        destruct (HL b Hb) as (_ & _ & HK). destruct b as [| | | | | | | | | |ks| | |]; try destruct HK. simpl in *. apply in_flat_map. exists x. rewrite Eb. auto.
      + intros (b & Hb & Hq). destruct (HL b Hb) as (_ & _ & HK). destruct b as [| | | | | | | | | |ks| | |]; try destruct HK. simpl in Hq.
        apply in_flat_map in Hq as (x & Hx & Hq).
        assert (Hin : In ks (map st (ident bs))) by (rewrite Hst; apply in_map_iff; exists (BKron ks); auto).
        apply in_map_iff in Hin as (i & Ei & Hi). rewrite <- Ei in Hx.
        destruct (Z1 x i Hi Hx) as (col & Hcol & Hxc). exists (BChain col). split; [apply in_map; exact Hcol|].
        simpl. apply in_flat_map. eauto.
    - cbn [krons_ok]. split.
      + intros E. rewrite E in Hy. discriminate.
      + split; [exact Hdis|]. apply all_forall. apply Forall_forall. intros cb Hcb.
        apply in_map_iff in Hcb as (col & <- & Hcol). simpl. apply all_forall. apply Forall_forall. intros x Hx.
        destruct (Z2 col x Hcol Hx) as (i & Hi & Hxi).
        assert (Hin : In (st i) (map st (ident bs))) by (apply in_map, Hi). rewrite Hst in Hin.
        apply in_map_iff in Hin as (b & Eb & Hb). simpl in Hok. apply all_forall in Hok. rewrite Forall_forall in Hok.
        specialize (Hok b Hb). destruct (HL b Hb) as (_ & _ & HK).
        destruct b as [| | | | | | | | | |ks| | |]; try destruct HK. simpl in Eb. subst ks.
        destruct Hok as (_ & _ & Hok). apply all_forall in Hok. rewrite Forall_forall in Hok. auto.
  Qed.

  Lemma chain_ops_good : forall b, krons_ok b -> exists y, chain_ops si ident b = Some y /\ (forall rho, den rho y = den rho b) /\ (forall q, In q (qubits y) <-> In q (qubits b)) /\ krons_ok y.
  Proof.
    assert (Hrec : forall k bs, Forall (fun b => krons_ok b -> exists y, chain_ops si ident b = Some y /\
        (forall rho, den rho y = den rho b) /\ (forall q, In q (qubits y) <-> In q (qubits b)) /\ krons_ok y) bs ->
        krons_ok (comp k bs) ->
        exists y, obind (osequence (map (chain_ops si ident) bs)) (construct si k) = Some y /\
        (forall rho, den rho y = den rho (comp k bs)) /\ (forall q, In q (qubits y) <-> In q (qubits (comp k bs))) /\ krons_ok y).
    { intros k bs IH Hok. apply krons_ok_comp in Hok as [Hk Hok].
      destruct (osequence_map_ex (chain_ops si ident) bs (fun b y => (forall rho, den rho y = den rho b) /\
        (forall q, In q (qubits y) <-> In q (qubits b)) /\ krons_ok y)) as (ys & E & F).
      { rewrite Forall_forall in *. intros b Hb. apply IH; auto. }
      assert (Hk' : k = KKron -> kron_ok_list ys).
      { intros Ek. destruct (Hk Ek) as [K1 K2]. split.
        - inversion F; subst; [congruence|discriminate].
        - eapply fop_map; [|exact F|exact K2]. intros a a' c c' (_ & q1 & _) (_ & q2 & _) HR q Ha Hb.
          apply (HR q); [apply q1|apply q2]; assumption. }
      exists (comp k ys). rewrite E. cbn [obind]. split; [apply construct_ok; assumption|]. split; [|split].
      - intros rho. rewrite !den_comp. clear -F. induction F as [|b y bs ys H F IH]; [reflexivity|].
        rewrite !dcomp_cons, IH. f_equal. apply H.
      - intros q. rewrite !qubits_comp, !in_flat_map. clear -F. split.
        + intros (x & Hx & Hq). induction F as [|b y bs ys H F IH]; [destruct Hx|]. destruct Hx as [<-|Hx].
          * exists b. split; [left; reflexivity|]. apply H. exact Hq.
          * destruct (IH Hx) as (z & Hz & Hqz). exists z. split; [right; exact Hz|exact Hqz].
        + intros (x & Hx & Hq). induction F as [|b y bs ys H F IH]; [destruct Hx|]. destruct Hx as [<-|Hx].
          * exists y. split; [left; reflexivity|]. apply H. exact Hq.
          * destruct (IH Hx) as (z & Hz & Hqz). exists z. split; [right; exact Hz|exact Hqz].
      - apply krons_ok_comp. split; [exact Hk'|]. clear -F. induction F as [|b y bs ys H F IH]; constructor; [apply H|exact IH]. }
    induction b as [k bs IH|b e IH|b Hk Hsc] using skel_ind; intros Hok.
    - destruct k.
      + cbn [chain_ops comp]. change (children (BChain bs)) with bs.
        destruct (is_chain_of_primitivekrons si (BChain bs)) eqn:HM; [|apply (Hrec KChain); assumption].
        destruct (mk_kron si (map BChain (zip_layers (ident bs) bs))) as [y|] eqn:Ey.
        * exists y. split; [reflexivity|]. apply chain_ops_zip; assumption.
        * exists (BChain bs). repeat split; auto.
      + apply (Hrec KKron); assumption.
      + apply (Hrec KAdd); assumption.
    - exists (BScale b e). repeat split; auto.
    - exists b. split; [|repeat split; auto]. destruct b; simpl in *; try reflexivity; try discriminate.
  Qed.
End ChainOps.

(** The rewrite keeps the operator and the support, provided no two layers of a chain are the same object. *)
Theorem C09_chain_single_qubit_ops : forall set_iter ident b, set_order set_iter -> distinct_objects ident -> krons_ok b ->
  exists y, chain_ops set_iter ident b = Some y /\ (forall rho, den rho y = den rho b) /\
    (forall q, In q (qubits y) <-> In q (qubits b)) /\ krons_ok y.
Proof. intros si ident b Hs Hid Hok. apply chain_ops_good; assumption. Qed.

Definition obj_index (l : list block) : list nat := seq 0 (length l).
Definition layer2 (p1 p2 : prim) : block := BKron [BPrim p1 0; BPrim p2 1].


(** An iteration order of sets (the one CPython uses for small integers). *)
Definition sorted_set (l : list nat) : list nat := sorted (nodup Nat.eq_dec l).
Lemma sorted_set_order : set_order sorted_set.
Proof.
  intros l. split.
  - apply sorted_nodup, NoDup_nodup.
  - intros q. unfold sorted_set. rewrite in_sorted. apply nodup_In.
Qed.

(** chain(kron(X,H), kron(Z,S)) becomes kron(chain(X,Z), chain(H,S)). *)
Example C09_witness : distinct_objects obj_index /\
  let b := BChain [layer2 PX PH; layer2 PZ PS] in
  krons_ok b /\ chain_ops sorted_set obj_index b =
    Some (BKron [BChain [BPrim PX 0; BPrim PZ 0]; BChain [BPrim PH 1; BPrim PS 1]]).
Proof.
  split; [intros l; unfold obj_index; split; [apply seq_length|apply seq_NoDup]|].
  split; [|reflexivity].
  simpl. repeat split; try discriminate; repeat constructor; simpl; intuition lia.
Qed.

(** With the same layer object used twice, chain(k, k) for k = kron(X(0), X(1)), the two layers share one
    iterator and the rewritten block has a different operator. *)
Theorem C09_shared_layer_refuted : exists set_iter ident k y rho, set_order set_iter /\
  krons_ok (BChain [k; k]) /\ ident [k; k] = [0%nat; 0%nat] /\
  chain_ops set_iter ident (BChain [k; k]) = Some y /\ den rho y <> den rho (BChain [k; k]).
Proof.
  exists sorted_set, (fun _ => [0%nat; 0%nat]), (layer2 PX PX), (BKron [BChain [BPrim PX 0; BPrim PX 1]]), (fun _ => 0%R).
  split; [exact sorted_set_order|]. split; [simpl; repeat split; try discriminate; repeat constructor; simpl; intuition lia|].
  split; [reflexivity|]. split; [reflexivity|].
  intros H.
  assert (HE : matof [0%nat; 1%nat] (den (fun _ => 0%R) (BKron [BChain [BPrim PX 0; BPrim PX 1]])) [true; true] [false; false] =
               matof [0%nat; 1%nat] (den (fun _ => 0%R) (BChain [layer2 PX PX; layer2 PX PX])) [true; true] [false; false]) by (rewrite H; reflexivity).
  revert HE. cbn. unfold matof, gate1, gate, ket, seqop, idop. cbn. apply C_neq. left. simpl. lra.
Qed.

Print Assumptions C09_chain_single_qubit_ops.
Print Assumptions C09_shared_layer_refuted.
