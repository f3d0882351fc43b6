From Coq Require Import String Reals List Arith Bool Lia FunctionalExtensionality.
From Coquelicot Require Import Coquelicot.
From Coq Require Import List.
From Verif Require Import S_Sets S_Ops M_QubitSupport M_Block S_Den L_Ops L_Den L_Loc M_BlockOps L_Support M_Tensor S_Transpile M_Transpile.
Import ListNotations.

Lemma all_forall {A} (P : A -> Prop) l : fold_right (fun x k => P x /\ k) True l <-> Forall P l.
Proof.
  induction l as [|a l IH]; simpl; [split; [constructor|auto]|]. rewrite IH. split.
  - intros [H1 H2]; constructor; assumption.
  - intros H; inversion H; auto.
Qed.

Definition comp (k : kind) (bs : list block) : block :=
  match k with KChain => BChain bs | KKron => BKron bs | KAdd => BAdd bs end.
Definition pkind (T : kind) : block -> Prop :=
  match T with KChain => is_chain | KKron => is_kron | KAdd => is_add end.

Lemma is_kind_spec T b : is_kind T b = true <-> pkind T b.
Proof. destruct T, b; simpl; split; try reflexivity; try discriminate; try tauto; auto. Qed.
Lemma is_kind_false T b : is_kind T b = false <-> ~ pkind T b.
Proof.
  rewrite <- is_kind_spec. destruct (is_kind T b); split; try discriminate; auto. congruence.
Qed.

Lemma comp_kind k bs : kind_of (comp k bs) = Some k. Proof. destruct k; reflexivity. Qed.
Lemma kind_comp b k : kind_of b = Some k -> exists bs, b = comp k bs.
Proof. destruct b; simpl; intros E; try discriminate; injection E as <-; eexists; reflexivity. Qed.
Lemma pkind_comp T k bs : pkind T (comp k bs) <-> T = k.
Proof. destruct T, k; simpl; split; intros; try congruence; try tauto; auto. Qed.
Lemma pkind_kind T b b' : kind_of b = kind_of b' -> pkind T b -> pkind T b'.
Proof. destruct T, b, b'; simpl; intros E H; try discriminate; tauto. Qed.

Lemma osequence_some {A} (l : list (option A)) l' : osequence l = Some l' <-> l = map Some l'.
Proof.
  revert l'. induction l as [|x l IH]; intros l'; simpl.
  - split; [intros E; injection E as <-; reflexivity|]. destruct l'; [reflexivity|discriminate].
  - destruct x as [a|]; simpl.
    + destruct (osequence l) as [r|]; simpl.
      * split.
        -- intros E; injection E as <-. simpl. f_equal. apply IH. reflexivity.
        -- destruct l' as [|a' l']; [discriminate|]. simpl. intros E. injection E as -> E. apply IH in E. congruence.
      * split; [discriminate|]. destruct l' as [|a' l']; [discriminate|]. simpl. intros E. injection E as -> E. apply IH in E. discriminate.
    + split; [discriminate|]. destruct l'; discriminate.
Qed.

Lemma osequence_map_ex {A B} (f : A -> option B) l (P : A -> B -> Prop) :
  Forall (fun a => exists b, f a = Some b /\ P a b) l ->
  exists l', osequence (map f l) = Some l' /\ Forall2 P l l'.
Proof.
  induction 1 as [|a l (b & E & Hb) _ (l' & E' & Hl')]; simpl.
  - exists []. split; [reflexivity|constructor].
  - exists (b :: l'). rewrite E. simpl. rewrite E'. split; [reflexivity|constructor; assumption].
Qed.

Section Wf.
  Variable rho : env.

  Definition dcomp (k : kind) (bs : list block) : Op := match k with KAdd => dadd rho bs | _ => dchain rho bs end.
  Lemma den_comp k bs : den rho (comp k bs) = dcomp k bs. Proof. destruct k; reflexivity. Qed.
  Definition opk (k : kind) : Op -> Op -> Op := match k with KAdd => addop | _ => seqop end.
  Lemma dcomp_app k l1 l2 : dcomp k (l1 ++ l2) = opk k (dcomp k l1) (dcomp k l2).
  Proof. destruct k; [apply dchain_app|apply dchain_app|apply dadd_app]. Qed.
  Lemma dcomp_cons k x l : dcomp k (x :: l) = opk k (den rho x) (dcomp k l).
  Proof. destruct k; reflexivity. Qed.
  Lemma dcomp_one k x : dcomp k [x] = den rho x.
  Proof. destruct k; simpl; [apply seqop_id_r|apply seqop_id_r|apply addop_zero_r]. Qed.
End Wf.

Lemma qubits_comp k bs : qubits (comp k bs) = flat_map qubits bs. Proof. destruct k; reflexivity. Qed.
Lemma gates_comp k bs : gates (comp k bs) = flat_map gates bs. Proof. destruct k; reflexivity. Qed.
Lemma no_nest_comp p k bs : no_nest p (comp k bs) <-> (p (comp k bs) -> Forall (fun x => ~ p x) bs) /\ Forall (no_nest p) bs.
Proof. destruct k; simpl; rewrite all_forall; reflexivity. Qed.

Definition kron_ok_list (bs : list block) : Prop := bs <> [] /\ ForallOrdPairs disjoint_blocks bs.
Lemma krons_ok_comp k bs : krons_ok (comp k bs) <-> (k = KKron -> kron_ok_list bs) /\ Forall krons_ok bs.
Proof.
  unfold kron_ok_list. destruct k; simpl; rewrite all_forall.
  - split; [intros; split; [discriminate|assumption]|tauto].
  - split; [intros (H1 & H2 & H3)|intros (H1 & H2); destruct (H1 eq_refl)]; auto.
  - split; [intros; split; [discriminate|assumption]|tauto].
Qed.

Lemma block_cases b : (exists k bs, b = comp k bs) \/ (exists b' e, b = BScale b' e) \/ (kind_of b = None /\ ~ is_scale b).
Proof.
  destruct b; simpl; auto.
  - right; left; eauto.
  - left; exists KChain; eauto.
  - left; exists KKron; eauto.
  - left; exists KAdd; eauto.
Qed.

(** Induction over the composite/scale skeleton only. *)
Lemma skel_ind (P : block -> Prop) :
  (forall k bs, Forall P bs -> P (comp k bs)) -> (forall b e, P b -> P (BScale b e)) ->
  (forall b, kind_of b = None -> ~ is_scale b -> P b) -> forall b, P b.
Proof.
  intros H1 H2 H3. induction b as [p q|k br qs|r q ee|q a b c|a b|c a b|cs b IH|cs b IH|b ee IH|bs IH|bs IH|bs IH|m qs|g t IH]
      using block_ind'; try (apply H3; [reflexivity|simpl; tauto]).
  - apply H2; exact IH.
  - apply (H1 KChain); exact IH.
  - apply (H1 KKron); exact IH.
  - apply (H1 KAdd); exact IH.
Qed.

Lemma fop_concat (R : block -> block -> Prop) ls :
  Forall (ForallOrdPairs R) ls -> ForallOrdPairs (fun l1 l2 => forall x y, In x l1 -> In y l2 -> R x y) ls ->
  ForallOrdPairs R (concat ls).
Proof.
  intros H1 H2. induction H2 as [|l ls Hl _ IH]; simpl; [constructor|].
  inversion H1 as [|? ? Ha Hb]; subst. specialize (IH Hb). clear H1 Hb.
  induction Ha as [|x l Hx Hxs IHx]; simpl; [exact IH|].
  constructor.
  - apply Forall_app. split; [exact Hx|]. apply Forall_forall. intros y Hy. apply in_concat in Hy as (l' & Hl' & Hy).
    rewrite Forall_forall in Hl. apply (Hl l' Hl'); [left; reflexivity|exact Hy].
  - apply IHx. eapply Forall_impl; [|exact Hl]. intros l' H a b Ha Hb. apply H; [right; exact Ha|exact Hb].
Qed.

Lemma fop_map {A B} (R : A -> A -> Prop) (R' : B -> B -> Prop) (P : A -> B -> Prop) l l' :
  (forall a a' b b', P a b -> P a' b' -> R a a' -> R' b b') ->
  Forall2 P l l' -> ForallOrdPairs R l -> ForallOrdPairs R' l'.
Proof.
  intros H F. induction F as [|a b l l' Hab F IH]; intros HR; [constructor|].
  inversion HR as [|? ? Ha HR']; subst. constructor; [|apply IH; exact HR'].
  clear IH HR HR'. induction F as [|a' b' l l' Hab' F IH]; [constructor|].
  inversion Ha; subst. constructor; eauto.
Qed.

(** What one flattening step yields. *)
Section Flat.
  Variable set_iter : list nat -> list nat.
  Hypothesis Hs : set_order set_iter.
  Variable T : kind.

  Lemma construct_ok k bs : (k = KKron -> kron_ok_list bs) -> construct set_iter k bs = Some (comp k bs).
  Proof.
    destruct k; simpl; intros H; try reflexivity.
    destruct (mk_kron_spec set_iter Hs bs) as [HH _]. apply HH. apply H. reflexivity.
  Qed.
  Lemma construct_inv k bs b : construct set_iter k bs = Some b -> b = comp k bs /\ (k = KKron -> kron_ok_list bs).
  Proof.
    destruct k; simpl; intros H; try (injection H as <-; split; [reflexivity|discriminate]).
    destruct (mk_kron_spec set_iter Hs bs) as [HH [E|E]]; rewrite E in H; [|discriminate].
    injection H as <-. split; [reflexivity|]. intros _. apply HH. exact E.
  Qed.

  Definition flatg (k : kind) (bs : list block) :=
    let ys := if kind_eqb k T
              then omap (@concat block) (osequence (map (fun x =>
                     if is_kind T x then fst (flatp set_iter T x) else omap (fun y => [y]) (snd (flatp set_iter T x))) bs))
              else osequence (map (fun x => snd (flatp set_iter T x)) bs) in
    (ys, obind ys (construct set_iter k)).
  Lemma flatp_comp k bs : flatp set_iter T (comp k bs) = flatg k bs.
  Proof. destruct k; reflexivity. Qed.
  Lemma flatp_other b : kind_of b = None -> ~ is_scale b -> flatp set_iter T b = (Some [b], Some b).
  Proof. destruct b; simpl; intros; try reflexivity; try discriminate; tauto. Qed.

  Lemma kind_eqb_spec a b : kind_eqb a b = true <-> a = b.
  Proof. destruct a, b; simpl; split; congruence. Qed.

  (** relation between a block and its image *)
  Definition same (b y : block) : Prop :=
    krons_ok y /\ kind_of y = kind_of b /\ qubits y = qubits b /\ gates y = gates b /\
    (forall rho, den rho y = den rho b) /\ no_nest (pkind T) y /\
    (forall T', no_nest (pkind T') b -> no_nest (pkind T') y).
  (** relation between a list of blocks replacing [b] inside a composite of kind [k] *)
  Definition samel (k : kind) (b : block) (ys : list block) : Prop :=
    Forall krons_ok ys /\ flat_map qubits ys = qubits b /\ flat_map gates ys = gates b /\
    (forall rho, dcomp rho k ys = den rho b) /\ Forall (no_nest (pkind T)) ys /\
    (k = KKron -> kron_ok_list ys) /\
    (k = T -> Forall (fun z => ~ pkind T z) ys) /\
    (forall T', no_nest (pkind T') b -> Forall (no_nest (pkind T')) ys).

  Definition inv (b : block) : Prop := krons_ok b ->
    (exists y, snd (flatp set_iter T b) = Some y /\ same b y) /\
    (forall k bs, b = comp k bs -> exists ys, fst (flatp set_iter T b) = Some ys /\ samel k b ys).

  Lemma flat_map_F2 {A} (f : block -> list A) (P : block -> block -> Prop) bs ys :
    (forall b y, P b y -> f y = f b) -> Forall2 P bs ys -> flat_map f ys = flat_map f bs.
  Proof. intros H. induction 1; simpl; [reflexivity|]. rewrite IHForall2. erewrite H by eassumption. reflexivity. Qed.
  Lemma flat_map_F2l {A} (f : block -> list A) (P : block -> list block -> Prop) bs ls :
    (forall b l, P b l -> flat_map f l = f b) -> Forall2 P bs ls -> flat_map f (concat ls) = flat_map f bs.
  Proof.
    intros H. induction 1; simpl; [reflexivity|]. rewrite flat_map_app, IHForall2.
    f_equal. apply H. assumption.
  Qed.

  Lemma in_flat_q x l q : In x l -> In q (qubits x) -> In q (flat_map qubits l).
  Proof. intros. apply in_flat_map. eauto. Qed.

  Lemma same_to_samel_one k b y : same b y -> (k = T -> ~ pkind T b) -> samel k b [y].
  Proof.
    intros (H1 & H2 & H3 & H4 & H5 & H6 & H7) Hk. repeat split.
    - constructor; [assumption|constructor].
    - simpl. rewrite app_nil_r. assumption.
    - simpl. rewrite app_nil_r. assumption.
    - intros rho. rewrite dcomp_one. apply H5.
    - constructor; [assumption|constructor].
    - discriminate.
    - repeat constructor.
    - intros E. constructor; [|constructor]. intros P. apply (Hk E). eapply pkind_kind; [exact H2|exact P].
    - intros T' H. constructor; [|constructor]. apply H7, H.
  Qed.

  (** children replaced one by one *)
  Lemma samel_children k bs ys : k <> T -> krons_ok (comp k bs) -> Forall2 same bs ys -> samel k (comp k bs) ys.
  Proof.
    intros HkT Hok F. apply krons_ok_comp in Hok as [Hk Hok].
    repeat split.
    - clear -F. induction F as [|b y bs ys H F IH]; constructor; [apply H|exact IH].
    - rewrite qubits_comp. eapply flat_map_F2; [|exact F]. intros b y H; apply H.
    - rewrite gates_comp. eapply flat_map_F2; [|exact F]. intros b y H; apply H.
    - intros rho. rewrite den_comp. clear -F. induction F as [|b y bs ys H F IH]; [reflexivity|].
      rewrite !dcomp_cons, IH. f_equal. apply H.
    - clear -F. induction F as [|b y bs ys H F IH]; constructor; [destruct H as (_ & _ & _ & _ & _ & H & _); exact H|exact IH].
    - destruct (Hk H) as [Hne _]. inversion F; subst; [congruence|discriminate].
    - destruct (Hk H) as [_ Hd]. eapply fop_map; [|exact F|exact Hd].
      intros a a' b b' Ha Hb HR q Hq Hq'. destruct Ha as (_ & _ & Ea & _), Hb as (_ & _ & Eb & _).
      rewrite Ea in Hq. rewrite Eb in Hq'. eapply HR; eassumption.
    - congruence.
    - intros T' HT. apply no_nest_comp in HT as [_ HT]. clear -F HT.
      induction F as [|b y bs ys H F IH]; [constructor|]. inversion HT; subst. constructor; [apply H; assumption|auto].
  Qed.

  Lemma samel_concat bs ls : krons_ok (comp T bs) -> Forall2 (samel T) bs ls -> samel T (comp T bs) (concat ls).
  Proof.
    intros Hok F. apply krons_ok_comp in Hok as [Hk Hok].
    assert (FA : forall (Q : block -> Prop), (forall b l, samel T b l -> Forall Q l) -> Forall Q (concat ls)).
    { intros Q HQ. clear -F HQ. induction F; simpl; [constructor|]. apply Forall_app. split; eauto. }
    repeat split.
    - apply FA. intros b l H; apply H.
    - rewrite qubits_comp. eapply flat_map_F2l; [|exact F]. intros b y H; apply H.
    - rewrite gates_comp. eapply flat_map_F2l; [|exact F]. intros b y H; apply H.
    - intros rho. rewrite den_comp. clear -F. induction F as [|b y bs ys H F IH]; [reflexivity|].
      simpl. rewrite dcomp_app, dcomp_cons, IH. f_equal. apply H.
    - apply FA. intros b l (_ & _ & _ & _ & H & _); exact H.
    - destruct (Hk H) as [Hne _]. destruct F as [|b l bs ls Hb F]; [congruence|].
      destruct Hb as (_ & _ & _ & _ & _ & Hb & _). destruct (Hb H) as [Hl _]. simpl. destruct l; [congruence|discriminate].
    - destruct (Hk H) as [_ Hd]. apply fop_concat.
      + clear -F H. induction F as [|b l bs ls Hb F IH]; constructor; [|exact IH].
        destruct Hb as (_ & _ & _ & _ & _ & Hb & _). apply Hb. exact H.
      + eapply fop_map; [|exact F|exact Hd].
        intros a a' b b' Ha Hb HR x y Hx Hy q Hq Hq'.
        destruct Ha as (_ & Ea & _), Hb as (_ & Eb & _).
        apply (HR q); [rewrite <- Ea|rewrite <- Eb]; eapply in_flat_q; eassumption.
    - intros _. apply FA. intros b l (_ & _ & _ & _ & _ & _ & H & _). apply H. reflexivity.
    - intros T' HT. apply no_nest_comp in HT as [_ HT]. clear -F HT.
      induction F as [|b l bs ls H F IH]; [constructor|]. inversion HT; subst. simpl. apply Forall_app. split; [apply H; assumption|auto].
  Qed.

  Lemma samel_same k bs ys : samel k (comp k bs) ys ->
    (k <> T -> Forall2 (fun b y => kind_of y = kind_of b) bs ys) -> same (comp k bs) (comp k ys).
  Proof.
    intros (H1 & H2 & H3 & H4 & H5 & H6 & H7 & H8) HF.
    repeat split.
    - apply krons_ok_comp. split; assumption.
    - rewrite !comp_kind. reflexivity.
    - rewrite (qubits_comp k ys). exact H2.
    - rewrite (gates_comp k ys). exact H3.
    - intros rho. rewrite (den_comp rho k ys). apply H4.
    - apply no_nest_comp. split; [|exact H5]. intros E. apply pkind_comp in E. apply H7. congruence.
    - intros T' HT. apply no_nest_comp. split; [|apply H8; exact HT].
      intros E. apply pkind_comp in E. subst T'.
      destruct (kind_eqb k T) eqn:Ek.
      + apply kind_eqb_spec in Ek. subst k. apply H7. reflexivity.
      + assert (Hne : k <> T) by (intros E; apply kind_eqb_spec in E; congruence).
        specialize (HF Hne). apply no_nest_comp in HT as [HT _].
        assert (P : pkind k (comp k bs)) by (apply pkind_comp; reflexivity). specialize (HT P).
        clear -HF HT. induction HF as [|b y bs ys H F IH]; [constructor|]. inversion HT; subst.
        constructor; [|auto]. intros Q. apply H2. eapply pkind_kind; [exact H|exact Q].
  Qed.

  Lemma flat_inv b : inv b.
  Proof.
    induction b as [k bs IH|b e IH|b Hk Hsc] using skel_ind; intros Hok.
    - assert (Hall : Forall krons_ok bs) by (apply krons_ok_comp in Hok; apply Hok).
      assert (F1 : Forall (fun b => exists y, snd (flatp set_iter T b) = Some y /\ same b y) bs).
      { rewrite Forall_forall in *. intros x Hx. apply (IH x Hx (Hall x Hx)). }
      destruct (kind_eqb k T) eqn:Ek.
      + pose proof Ek as Ek'. apply kind_eqb_spec in Ek'. subst k.
        assert (F : Forall (fun x => exists l, (if is_kind T x then fst (flatp set_iter T x) else omap (fun y => [y]) (snd (flatp set_iter T x))) = Some l /\ samel T x l) bs).
        { rewrite Forall_forall in *. intros x Hx. destruct (IH x Hx (Hall x Hx)) as [(y & Ey & Hy) Hl].
          destruct (is_kind T x) eqn:EK.
          - unfold is_kind in EK. destruct (kind_of x) as [kx|] eqn:Ekx; [|discriminate].
            apply kind_eqb_spec in EK. subst kx. destruct (kind_comp _ _ Ekx) as (bx & ->). apply (Hl T bx eq_refl).
          - rewrite Ey. simpl. exists [y]. split; [reflexivity|]. apply same_to_samel_one; [exact Hy|].
            intros _. apply is_kind_false. exact EK. }
        destruct (osequence_map_ex _ _ _ F) as (ls & Els & FL).
        pose proof (samel_concat bs ls Hok FL) as SL.
        rewrite flatp_comp. unfold flatg. rewrite Ek, Els. cbn [omap obind fst snd].
        split.
        * rewrite construct_ok by apply SL. eexists; split; [reflexivity|]. apply samel_same; [exact SL|congruence].
        * intros k bs' E. assert (k = T) by (destruct k, T; simpl in E; congruence). subst k.
          eexists; split; [reflexivity|exact SL].
      + assert (Hne : k <> T) by (intros E; apply kind_eqb_spec in E; congruence).
        destruct (osequence_map_ex _ _ _ F1) as (ys & Eys & FY).
        pose proof (samel_children k bs ys Hne Hok FY) as SL.
        rewrite flatp_comp. unfold flatg. rewrite Ek, Eys. cbn [omap obind fst snd].
        split.
        * rewrite construct_ok by apply SL. eexists; split; [reflexivity|]. apply samel_same; [exact SL|].
          intros _. clear -FY. induction FY as [|b y bs ys H F IH]; constructor; [apply H|exact IH].
        * intros k' bs' E. assert (k' = k) by (destruct k, k'; simpl in E; congruence). subst k'.
          eexists; split; [reflexivity|exact SL].
    - destruct (IH Hok) as [(y & Ey & (H1 & H2 & H3 & H4 & H5 & H6 & H7)) _]. split.
      + simpl. rewrite Ey. simpl. eexists; split; [reflexivity|].
        repeat split; try assumption; try reflexivity.
        intros rho. simpl. rewrite H5. reflexivity.
      + intros k bs E. destruct k; discriminate.
    - rewrite flatp_other by assumption. split.
      + exists b. split; [reflexivity|]. repeat split; auto.
        destruct b; simpl; auto; simpl in *; try discriminate; tauto.
      + intros k bs ->. rewrite comp_kind in Hk. discriminate.
  Qed.

  Lemma flat_step b : krons_ok b -> exists y, snd (flatp set_iter T b) = Some y /\ same b y.
  Proof. intros H. apply (flat_inv b H). Qed.
End Flat.
