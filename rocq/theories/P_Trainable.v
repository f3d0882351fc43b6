(** C11: set_trainable. *)
From Coq Require Import String List Arith Bool Lia.
From Verif Require Import M_Trainable.
Import ListNotations.

(** Specification: [occurs o b], the parameter object [o] occurs in a parameter expression somewhere in [b]. *)
Inductive occurs_e (o : nat) : pexpr -> Prop :=
| oc_sym : occurs_e o (PSym o)
| oc_app f l e : In e l -> occurs_e o e -> occurs_e o (PApp f l).
Inductive occurs (o : nat) : tblock -> Prop :=
| oc_ctrl b : occurs o b -> occurs o (TCtrl b)
| oc_param m u e : In (u, e) m -> occurs_e o e -> occurs o (TParam m)
| oc_analog m u e : In (u, e) m -> occurs_e o e -> occurs o (TAnalog m)
| oc_evo g m u e : In (u, e) m -> occurs_e o e -> occurs o (TEvo g m)
| oc_gen g m : occurs o g -> occurs o (TEvo (Some g) m)
| oc_scale b u e : occurs_e o e -> occurs o (TScale b u e)
| oc_scaled b u e : occurs o b -> occurs o (TScale b u e)
| oc_comp bs b : In b bs -> occurs o b -> occurs o (TComp bs).

(** [entry u e b]: the expression [e] is stored in [b] under the identifier [u]. *)
Inductive entry (u : nat) (e : pexpr) : tblock -> Prop :=
| en_ctrl b : entry u e b -> entry u e (TCtrl b)
| en_param m : In (u, e) m -> entry u e (TParam m)
| en_analog m : In (u, e) m -> entry u e (TAnalog m)
| en_evo g m : In (u, e) m -> entry u e (TEvo g m)
| en_gen g m : entry u e g -> entry u e (TEvo (Some g) m)
| en_scale b : entry u e (TScale b u e)
| en_scaled b u' e' : entry u e b -> entry u e (TScale b u' e')
| en_comp bs b : In b bs -> entry u e b -> entry u e (TComp bs).
(** An identifier names one expression (identifiers are uuids; copies share both). *)
Definition uuids_consistent (b : tblock) : Prop := forall u e e', entry u e b -> entry u e' b -> e = e'.
(** Non-parametric controls hold no parameters. *)
Fixpoint plain_controls (b : tblock) : Prop :=
  match b with
  | TCtrl b' => forall o, ~ occurs o b'
  | TEvo (Some g) _ => plain_controls g
  | TScale b' _ _ => plain_controls b'
  | TComp bs => fold_right (fun x k => plain_controls x /\ k) True bs
  | _ => True
  end.

Fixpoint tblock_ind' (P : tblock -> Prop) (H1 : P TPrim) (H2 : forall b, P b -> P (TCtrl b)) (H3 : forall m, P (TParam m))
  (H4 : forall g m, (match g with Some x => P x | None => True end) -> P (TEvo g m)) (H5 : forall b u e, P b -> P (TScale b u e))
  (H6 : forall bs, Forall P bs -> P (TComp bs)) (H7 : forall m, P (TAnalog m)) (b : tblock) : P b :=
  let F := tblock_ind' P H1 H2 H3 H4 H5 H6 H7 in
  match b with
  | TPrim => H1 | TCtrl b' => H2 b' (F b') | TParam m => H3 m
  | TEvo g m => H4 g m (match g with Some x => F x | None => I end)
  | TScale b' u e => H5 b' u e (F b')
  | TComp bs => H6 bs ((fix go l : Forall P l := match l with [] => Forall_nil P | x :: r => Forall_cons x (F x) (go r) end) bs)
  | TAnalog m => H7 m
  end.
Fixpoint pexpr_ind' (P : pexpr -> Prop) (H1 : forall k, P (PNum k)) (H2 : forall o, P (PSym o))
  (H3 : forall f l, Forall P l -> P (PApp f l)) (e : pexpr) : P e :=
  match e with
  | PNum k => H1 k | PSym o => H2 o
  | PApp f l => H3 f l ((fix go l : Forall P l := match l with [] => Forall_nil P | x :: r => Forall_cons x (pexpr_ind' P H1 H2 H3 x) (go r) end) l)
  end.

Lemma free_symbols_spec o e : In o (free_symbols e) <-> occurs_e o e.
Proof.
  induction e as [k|o'|f l IH] using pexpr_ind'; simpl.
  - split; [tauto|inversion 1].
  - split; [intros [->|[]]; constructor|inversion 1; auto].
  - rewrite in_flat_map. rewrite Forall_forall in IH. split.
    + intros (e & He & Ho). eapply oc_app; [exact He|]. apply IH; assumption.
    + inversion 1; subst. exists e. split; [assumption|]. apply IH; assumption.
Qed.

(** The dictionary holds exactly the last expression written for each key. *)
Lemma in_dset d k v u e : In (u, e) (dset d k v) -> (u = k /\ e = v) \/ In (u, e) d.
Proof.
  unfold dset. destruct (existsb _ d).
  - intros H. apply in_map_iff in H as ([u' e'] & E & H). simpl in E. destruct (Nat.eqb u' k); injection E as <- <-; auto.
  - intros H. apply in_app_iff in H as [H|[H|[]]]; [auto|]. injection H as <- <-. auto.
Qed.
Lemma dset_key d k v u : (exists e, In (u, e) (dset d k v)) <-> u = k \/ exists e, In (u, e) d.
Proof.
  split.
  - intros (e & H). apply in_dset in H as [[-> _]|H]; eauto.
  - unfold dset. destruct (existsb _ d) eqn:E.
    + intros [->|(e & H)].
      * apply existsb_exists in E as ([u' e'] & H & E). apply Nat.eqb_eq in E. simpl in E. subst. exists v.
        apply in_map_iff. exists (k, e'). simpl. rewrite Nat.eqb_refl. auto.
      * destruct (Nat.eqb u k) eqn:Eu.
        -- apply Nat.eqb_eq in Eu. subst. exists v. apply in_map_iff. exists (k, e). simpl. rewrite Nat.eqb_refl. auto.
        -- exists e. apply in_map_iff. exists (u, e). simpl. rewrite Eu. auto.
    + intros [->|(e & H)]; [exists v|exists e]; apply in_app_iff; simpl; auto.
Qed.
Lemma in_dset_all m : forall d u e, In (u, e) (dset_all d m) -> In (u, e) m \/ In (u, e) d.
Proof.
  unfold dset_all. induction m as [|[k v] m IH]; intros d u e H; simpl in *; [auto|].
  apply IH in H as [H|H]; [auto|]. apply in_dset in H as [[-> ->]|H]; auto.
Qed.
Lemma dset_all_key m : forall d u, (exists e, In (u, e) (dset_all d m)) <-> (exists e, In (u, e) m) \/ exists e, In (u, e) d.
Proof.
  unfold dset_all. induction m as [|[k v] m IH]; intros d u; simpl.
  - split; [auto|intros [(e & [])|H]; exact H].
  - rewrite IH, dset_key. split.
    + intros [(e & H)|[->|H]]; eauto.
    + intros [(e & [H|H])|H]; eauto. injection H as -> ->. auto.
Qed.

Lemma u2e_sound b : forall d u e, In (u, e) (uuid_to_expression b d) -> entry u e b \/ In (u, e) d.
Proof.
  induction b as [|b IH|m|g m IH|b u' e' IH|bs IH|m] using tblock_ind'; intros d u e H; simpl in H.
  - auto.
  - auto.
  - apply in_dset_all in H as [H|H]; [left; constructor; exact H|auto].
  - apply in_dset_all in H as [H|H]; [left; constructor; exact H|]. destruct g as [g|]; [|auto].
    apply IH in H as [H|H]; [left; apply en_gen; exact H|auto].
  - apply IH in H as [H|H]; [left; apply en_scaled; exact H|]. apply in_dset in H as [[-> ->]|H]; [left; constructor|auto].
  - assert (G : forall l d, (forall x, In x l -> In x bs) -> In (u, e) (fold_left (fun d x => uuid_to_expression x d) l d) -> entry u e (TComp bs) \/ In (u, e) d).
    { clear d H. induction l as [|x l IHl]; intros d Hl H; simpl in H; [auto|].
      apply IHl in H; [|intros; apply Hl; right; assumption]. destruct H as [H|H]; [auto|].
      rewrite Forall_forall in IH. apply IH in H; [|apply Hl; left; reflexivity]. destruct H as [H|H]; [|auto].
      left. eapply en_comp; [apply Hl; left; reflexivity|exact H]. }
    apply (G bs); auto.
  - apply in_dset_all in H as [H|H]; [left; constructor; exact H|auto].
Qed.

Lemma entry_occurs u e o b : entry u e b -> occurs_e o e -> occurs o b.
Proof.
  intros H He. induction H; [apply oc_ctrl|eapply oc_param|eapply oc_analog|eapply oc_evo|apply oc_gen|apply oc_scale|apply oc_scaled|eapply oc_comp]; eassumption.
Qed.
Lemma occurs_entry o b : occurs o b -> exists u e, entry u e b /\ occurs_e o e.
Proof.
  induction 1 as [b H IH|m u e H He|m u e H He|g m u e H He|g m H IH|b u e He|b u e H IH|bs b Hb H IH];
    try destruct IH as (u0 & e0 & IH & He); try (eexists; eexists; split; [|exact He]).
  - apply en_ctrl; eassumption.
  - apply en_param; eassumption.
  - apply en_analog; eassumption.
  - apply en_evo; eassumption.
  - apply en_gen; eassumption.
  - apply en_scale.
  - apply en_scaled; eassumption.
  - eapply en_comp; eassumption.
Qed.

(** Every key written survives. *)
Lemma u2e_keeps b : forall d u, (exists e, In (u, e) d) -> exists e, In (u, e) (uuid_to_expression b d).
Proof.
  induction b as [|b IH|m|g m IH|b u' e' IH|bs IH|m] using tblock_ind'; intros d u H; simpl; auto.
  - apply dset_all_key; auto.
  - apply dset_all_key. right. destruct g; auto.
  - apply IH, dset_key. auto.
  - revert d H. induction bs as [|x bs IHl]; intros d H; simpl; [exact H|]. inversion IH; subst. apply IHl; auto.
  - apply dset_all_key; auto.
Qed.
Lemma u2e_complete b : plain_controls b -> forall d u e, entry u e b -> (exists o, occurs_e o e) -> exists e', In (u, e') (uuid_to_expression b d).
Proof.
  induction b as [|b IH|m|g m IH|b u' e' IH|bs IH|m] using tblock_ind'; intros Hp d u e H Hoc; simpl; inversion H; subst.
  - destruct Hoc as (o & Ho). exfalso. apply (Hp o). eapply entry_occurs; eassumption.
  - apply dset_all_key; eauto.
  - apply dset_all_key; eauto.
  - apply dset_all_key. right. eapply IH; eauto.
  - apply u2e_keeps. apply dset_key. auto.
  - eapply IH; eauto.
  - simpl in Hp. revert d Hp. match goal with Hin : In _ bs |- _ => revert Hin end. clear H.
    induction bs as [|x bs IHl]; intros Hin d Hp; [destruct Hin|]. destruct Hp as [Hx Hp]. inversion IH as [|? ? IHx IHr]; subst. simpl. destruct Hin as [->|Hin].
    + destruct (IHx Hx d u e) as (e1 & H1); auto. clear -H1. 
      assert (G : forall l d, (exists e, In (u, e) d) -> exists e, In (u, e) (fold_left (fun d x => uuid_to_expression x d) l d)).
      { induction l as [|y l IHl]; intros d0 H0; simpl; [exact H0|]. apply IHl, u2e_keeps, H0. }
      apply G. eauto.
    + apply IHl; auto.
  - apply dset_all_key; eauto.
Qed.

(** [parameters] lists exactly the parameter objects of the block. *)
Lemma parameters_spec b o : plain_controls b -> uuids_consistent b -> In (inl o) (parameters b) <-> occurs o b.
Proof.
  intros Hp Hc. unfold parameters. rewrite in_flat_map. split.
  - intros ([u e] & H & Ho). simpl in Ho. apply u2e_sound in H as [H|[]].
    assert (Hf : In o (free_symbols e)).
    { destruct (free_symbols e) as [|a l]; [destruct Ho as [Ho|[]]; discriminate|]. change (In (inl o) (map (@inl nat pexpr) (a :: l))) in Ho. apply in_map_iff in Ho as (o' & E & Ho). injection E as <-. exact Ho. }
    apply free_symbols_spec in Hf. eapply entry_occurs; eassumption.
  - intros H. apply occurs_entry in H as (u & e & H & He).
    destruct (u2e_complete b Hp [] u e H (ex_intro _ o He)) as (e' & H').
    pose proof H' as H''. apply u2e_sound in H'' as [H''|[]]. rewrite (Hc u e' e H'' H) in H'.
    exists (u, e). split; [exact H'|]. simpl. apply free_symbols_spec in He. destruct (free_symbols e) as [|a l]; [destruct He|].
    change (In (inl o) (map (@inl nat pexpr) (a :: l))). apply in_map_iff. exists o. auto.
Qed.

Lemma set_flags l v : forall h o,
  pname (fold_left (fun h o => set_flag h o v) l h o) = pname (h o) /\
  pvalue (fold_left (fun h o => set_flag h o v) l h o) = pvalue (h o) /\
  ptrain (fold_left (fun h o => set_flag h o v) l h o) = (if existsb (Nat.eqb o) l then v else ptrain (h o)).
Proof.
  induction l as [|a l IH]; intros h o; simpl; [auto|].
  destruct (IH (set_flag h a v) o) as (I1 & I2 & I3). rewrite I1, I2, I3. unfold set_flag.
  destruct (Nat.eqb o a) eqn:E; simpl; [|auto].
  apply Nat.eqb_eq in E. subst. repeat split. destruct (existsb _ l); reflexivity.
Qed.

Lemma names_pos (names : list string) : (match names with [] => false | _ :: _ => true end) = true <-> names <> [].
Proof. destruct names; split; congruence. Qed.

(** set_trainable in place: exactly the parameters of the given blocks (restricted to the given names, if any) get
    the value; names and values of parameters, and the blocks, stay as they are. *)
Theorem C11_set_trainable : forall blocks names value h,
  blocks <> [] -> Forall plain_controls blocks -> Forall uuids_consistent blocks ->
  exists h', set_trainable blocks names value true h = Some (h', blocks) /\
  forall o, pname (h' o) = pname (h o) /\ pvalue (h' o) = pvalue (h o) /\
    ((exists b, In b blocks /\ occurs o b) /\ (names = [] \/ In (pname (h o)) names) -> ptrain (h' o) = value) /\
    (~ ((exists b, In b blocks /\ occurs o b) /\ (names = [] \/ In (pname (h o)) names)) -> ptrain (h' o) = ptrain (h o)).
Proof.
  intros blocks names value h Hne Hp Hc. unfold set_trainable. 
  assert (G : forall bs h, Forall plain_controls bs -> Forall uuids_consistent bs ->
    let h' := fold_left (set_block names value) bs h in
    forall o, pname (h' o) = pname (h o) /\ pvalue (h' o) = pvalue (h o) /\
    ((exists b, In b bs /\ occurs o b) /\ (names = [] \/ In (pname (h o)) names) -> ptrain (h' o) = value) /\
    (~ ((exists b, In b bs /\ occurs o b) /\ (names = [] \/ In (pname (h o)) names)) -> ptrain (h' o) = ptrain (h o))).
  { clear. induction bs as [|b bs IH]; intros h Hp Hc; cbn zeta.
    - intros o. simpl. repeat split; auto. intros [(b & [] & _) _].
    - inversion Hp; inversion Hc; subst. intros o. cbn [fold_left].
      match goal with |- context [fold_left ?f bs ?x] => set (h1 := x) end.
      destruct (IH h1 ltac:(assumption) ltac:(assumption) o) as (J1 & J2 & J3 & J4).
      assert (HB : pname (h1 o) = pname (h o) /\ pvalue (h1 o) = pvalue (h o) /\
        (occurs o b /\ (names = [] \/ In (pname (h o)) names) -> ptrain (h1 o) = value) /\
        (~ (occurs o b /\ (names = [] \/ In (pname (h o)) names)) -> ptrain (h1 o) = ptrain (h o))).
      { unfold h1, set_block. set (ps := flat_map _ (parameters b)).
        assert (Hps : forall o, In o ps <-> occurs o b).
        { intros o'. unfold ps. rewrite in_flat_map, <- (parameters_spec b o') by assumption. split.
          - intros ([o2|e] & H & Ho); [|destruct Ho]. destruct Ho as [->|[]]. exact H.
          - intros H. exists (inl o'). split; [exact H|left; reflexivity]. }
        destruct names as [|nm names'] eqn:En.
        - destruct (set_flags ps value h o) as (K1 & K2 & K3). rewrite K1, K2, K3. repeat split.
          + intros [Ho _]. apply Hps in Ho. replace (existsb (Nat.eqb o) ps) with true; [reflexivity|]. symmetry. apply existsb_exists. exists o. rewrite Nat.eqb_refl. auto.
          + intros Ho. destruct (existsb (Nat.eqb o) ps) eqn:E; [|reflexivity]. exfalso. apply Ho. split; [|auto].
            apply existsb_exists in E as (o' & H' & E). apply Nat.eqb_eq in E. subst. apply Hps, H'.
        - rewrite <- En. set (ps' := filter _ ps).
          assert (Hps' : forall o, In o ps' <-> occurs o b /\ In (pname (h o)) names).
          { intros o'. unfold ps'. rewrite filter_In, Hps. split; intros [Ha Hb]; split; auto.
            - apply existsb_exists in Hb as (s & Hs & E). apply String.eqb_eq in E. subst s. exact Hs.
            - apply existsb_exists. exists (pname (h o')). split; [exact Hb|apply String.eqb_refl]. }
          destruct (set_flags ps' value h o) as (K1 & K2 & K3). rewrite K1, K2, K3. repeat split.
          + intros [Ho [Hn|Hn]]; [congruence|]. replace (existsb (Nat.eqb o) ps') with true; [reflexivity|]. symmetry. apply existsb_exists. exists o.
            rewrite Nat.eqb_refl. split; [apply Hps'; split; [exact Ho|exact Hn]|reflexivity].
          + intros Ho. destruct (existsb (Nat.eqb o) ps') eqn:E; [|reflexivity]. exfalso. apply Ho.
            apply existsb_exists in E as (o' & H' & E). apply Nat.eqb_eq in E. subst. apply Hps' in H'. tauto. }
      destruct HB as (B1 & B2 & B3 & B4). cbv zeta in J1, J2, J3, J4. rewrite J1, J2, B1, B2 in *. repeat split.
      + intros [(b' & [<-|Hin] & Ho) Hn].
        * (* later blocks can only set the same value *)
          assert (D : ptrain (fold_left (set_block names value) bs h1 o) = value \/
             ptrain (fold_left (set_block names value) bs h1 o) = ptrain (h1 o)).
          { clear. clearbody h1. revert h1. induction bs as [|x bs IHb]; intros h1; cbn [fold_left]; [auto|].
            match goal with |- context [fold_left ?f bs ?y] => set (h2 := y) end.
            destruct (IHb h2) as [E|E]; [auto|].
            assert (D2 : ptrain (h2 o) = value \/ ptrain (h2 o) = ptrain (h1 o)).
            { unfold h2, set_block. match goal with |- context [fold_left _ ?l h1] => destruct (set_flags l value h1 o) as (_ & _ & K) end.
              rewrite K. destruct (existsb _ _); auto. }
            destruct D2 as [D2|D2]; [left|right]; rewrite E; exact D2. }
          destruct D as [D|D]; [exact D|]. rewrite D. apply B3. auto.
        * apply J3. split; [eauto|]. exact Hn.
      + intros Hn. rewrite J4; [apply B4|]; intros [Ha Hb]; apply Hn.
        * split; [exists b; simpl; auto|exact Hb].
        * destruct Ha as (b' & Hin & Ho). split; [exists b'; simpl; auto|exact Hb]. }
  destruct blocks as [|b0 bs]; [congruence|]. eexists. split; [reflexivity|]. intros o. apply (G (b0 :: bs) h Hp Hc o).
Qed.

(** inplace=False is refused. *)
Theorem C11_not_inplace : forall blocks names value h, set_trainable blocks names value false h = None.
Proof. reflexivity. Qed.

(** The parameters of a block inside a plain ControlBlock are not reached. *)
Theorem C11_control_refuted : exists b h o, uuids_consistent b /\ occurs o b /\ ptrain (h o) = true /\
  exists h', set_trainable [b] [] false true h = Some (h', [b]) /\ ptrain (h' o) = true.
Proof.
  exists (TCtrl (TParam [(0, PSym 0)])), (fun _ => mkP "theta" true 0), 0. split.
  - intros u e e' H1 H2. inversion H1; inversion H2; subst. match goal with A : entry _ _ _, B : entry _ _ _ |- _ => inversion A; inversion B; subst end.
    simpl in *. intuition congruence.
  - split; [apply oc_ctrl; eapply oc_param; [left; reflexivity|constructor]|]. split; [reflexivity|].
    eexists. split; reflexivity.
Qed.

Example C11_witness :
  let b1 := TComp [TParam [(0, PSym 0); (1, PNum 3)]; TScale (TComp [TPrim; TCtrl TPrim]) 2 (PApp "mul" [PSym 1; PSym 0])] in
  let b2 := TEvo (Some (TScale TPrim 3 (PSym 2))) [(4, PSym 3)] in
  let h o := nth o [mkP "x" true 5; mkP "y" true 6; mkP "x" true 7; mkP "z" true 8; mkP "x" true 9] (mkP "" true 0) in
  Forall plain_controls [b1; b2] /\
  exists h', set_trainable [b1; b2] ["x"%string] false true h = Some (h', [b1; b2]) /\
    map (fun o => ptrain (h' o)) [0; 1; 2; 3; 4] = [false; true; false; true; true].
Proof.
  split.
  - repeat constructor. simpl. intros o H. inversion H.
  - eexists. split; [reflexivity|]. reflexivity.
Qed.

Print Assumptions C11_set_trainable.
Print Assumptions C11_not_inplace.
Print Assumptions C11_control_refuted.

(** set_as_variational makes trainable, set_as_fixed makes not trainable, exactly the selected parameters of the blocks. *)
Theorem C11_variational_fixed : forall blocks names h, blocks <> [] -> Forall plain_controls blocks -> Forall uuids_consistent blocks ->
  let selected o := (exists b, In b blocks /\ occurs o b) /\ (names = [] \/ In (pname (h o)) names) in
  (exists h', set_as_variational blocks names true h = Some (h', blocks) /\
     forall o, (selected o -> ptrain (h' o) = true) /\ (~ selected o -> ptrain (h' o) = ptrain (h o))) /\
  (exists h', set_as_fixed blocks names true h = Some (h', blocks) /\
     forall o, (selected o -> ptrain (h' o) = false) /\ (~ selected o -> ptrain (h' o) = ptrain (h o))).
Proof.
  intros blocks names h N P U selected. split.
  - destruct (C11_set_trainable blocks names true h N P U) as (h' & E & H). exists h'. split; [exact E|]. intros o. destruct (H o) as (_ & _ & A & B). split; [exact A|exact B].
  - destruct (C11_set_trainable blocks names false h N P U) as (h' & E & H). exists h'. split; [exact E|]. intros o. destruct (H o) as (_ & _ & A & B). split; [exact A|exact B].
Qed.
Print Assumptions C11_variational_fixed.
