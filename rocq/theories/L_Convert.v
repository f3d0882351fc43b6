(** Lemmas for P_Convert.v. *)
From Coq Require Import String Reals List Arith Bool Lia Lra FunctionalExtensionality ZArith.
From Coquelicot Require Import Coquelicot.
From Coq Require Import List.
From Verif Require Import S_Sets S_Ops M_QubitSupport M_Block S_Den L_Ops L_Den L_Loc M_BlockOps L_Support M_Tensor L_Tensor S_Transpile M_Transpile L_Transpile M_Fill
  M_Convert S_Native P_Dagger P_Flatten P_ChainOps.
Import ListNotations.
Open Scope R_scope.
Open Scope C_scope.

Lemma ev_const rho e : vars e = [] -> ev rho e = cval e.
Proof.
  unfold cval. induction e as [c|s|a IH|a IHa b IHb|a IHa b IHb|a IH k|a IH|f a IH]; simpl; intros H; try reflexivity; try discriminate;
    try (rewrite IH by exact H; reflexivity); apply app_eq_nil in H as [H1 H2]; rewrite IHa, IHb by assumption; reflexivity.
Qed.

(** ConcretizedCallable's add, mul and pow compute sums, products and powers, its cos and sin the cosine and sine of a real number. *)
Definition calls_ok (ap : string -> list C -> option C) : Prop :=
  (forall x y, ap "add"%string [x; y] = Some (x + y)) /\ (forall x y, ap "mul"%string [x; y] = Some (x * y)) /\
  (forall x k, ap "pow"%string [x; RtoC (INR k)] = Some (cpow x k)) /\
  (forall x, ap "cos"%string [RtoC x] = Some (RtoC (cos x))) /\ (forall x, ap "sin"%string [RtoC x] = Some (RtoC (sin x))).

(** The scale factors the expression parser of the backend understands: real numbers, +, *, powers, cosines, sines and parameters whose name
    sympy does not reserve and whose value is available. *)
Fixpoint plain (parse_name : string -> read_name) (known : string -> bool) (e : expr) : Prop :=
  match e with
  | ECst c => snd c = 0%R
  | EVar s => parse_name s = RSymbol /\ known s = true
  | ENeg a | EPow a _ | EFun _ a => plain parse_name known a
  | EAdd a b | EMul a b => plain parse_name known a /\ plain parse_name known b
  | EConj _ => False
  end.

Lemma plain_imag pn known rho e : plain pn known e -> snd (ev rho e) = 0%R.
Proof.
  induction e as [c|s|a IH|a IHa b IHb|a IHa b IHb|a IH k|a IH|f a IH]; cbn [plain ev]; intros H.
  - exact H.
  - reflexivity.
  - cbn. rewrite IH by exact H. ring.
  - destruct H as [H1 H2]. cbn. rewrite IHa, IHb by assumption. ring.
  - destruct H as [H1 H2]. cbn. rewrite IHa, IHb by assumption. ring.
  - induction k as [|k IHk]; [reflexivity|]. cbn. rewrite IHk, IH by exact H. ring.
  - destruct H.
  - reflexivity.
Qed.

Lemma parse_plain ap pn known rho e : calls_ok ap -> plain pn known e ->
  exists x p, parse pn e = Some x /\ sympy_to_pyq x = Some p /\ pc_eval ap (entry known rho) p = Some (ev rho e).
Proof.
  intros (Ha & Hm & Hp & Hc & Hn). induction e as [c|s|a IH|a IHa b IHb|a IHa b IHb|a IH k|a IH|f a IH]; cbn [plain parse ev]; intros H.
  - destruct (Req_EM_T (snd c) 0) as [E|E]; [|tauto]. eexists; eexists. split; [reflexivity|]. split; [reflexivity|].
    cbn. f_equal. destruct c as [u v]. cbn in *. subst v. reflexivity.
  - destruct H as [E1 E2]. rewrite E1. eexists; eexists. split; [reflexivity|]. split; [reflexivity|]. cbn. unfold entry. rewrite E2. reflexivity.
  - destruct (IH H) as (x & p & E1 & E2 & E3). rewrite E1. eexists; eexists. split; [reflexivity|]. cbn. rewrite E2. split; [reflexivity|].
    cbn. rewrite E3. cbn. rewrite Hm. f_equal. apply Ceq; simpl; ring.
  - destruct H as [H1 H2]. destruct (IHa H1) as (x & p & E1 & E2 & E3). destruct (IHb H2) as (x' & p' & F1 & F2 & F3).
    rewrite E1. cbn [obind]. rewrite F1. eexists; eexists. split; [reflexivity|]. cbn. rewrite E2, F2. split; [reflexivity|].
    cbn. rewrite E3, F3. cbn. apply Ha.
  - destruct H as [H1 H2]. destruct (IHa H1) as (x & p & E1 & E2 & E3). destruct (IHb H2) as (x' & p' & F1 & F2 & F3).
    rewrite E1. cbn [obind]. rewrite F1. eexists; eexists. split; [reflexivity|]. cbn. rewrite E2, F2. split; [reflexivity|].
    cbn. rewrite E3, F3. cbn. apply Hm.
  - destruct (IH H) as (x & p & E1 & E2 & E3). rewrite E1. eexists; eexists. split; [reflexivity|]. cbn. rewrite E2. split; [reflexivity|].
    cbn. rewrite E3. cbn. apply Hp.
  - destruct H.
  - destruct (IH H) as (x & p & E1 & E2 & E3). rewrite E1.
    assert (Hr : ev rho a = RtoC (fst (ev rho a))) by (apply Ceq; [reflexivity|exact (plain_imag _ _ rho _ H)]).
    destruct f; eexists; eexists; (split; [reflexivity|]); cbn; rewrite E2; (split; [reflexivity|]); cbn; rewrite E3; cbn; rewrite Hr; cbn; [apply Hc|apply Hn].
Qed.

Section Convertible.
  Variable si : list nat -> list nat.
  Hypothesis Hs : set_order si.
  Variable pn : string -> read_name.
  Variable known : string -> bool.
  Variable num_hash : C -> Z.
  Variable is_time : string -> bool.

  (** A scale factor [e] on a block with the parameters [ps] that expression-level values can supply. *)
  Definition scale_ok (ps : list string) (e : expr) : Prop :=
    (vars e = [] /\ ps = []) \/ (vars e = [] /\ (0 <= num_hash (cval e))%Z) \/ (vars e <> [] /\ plain pn known e).

  (** Blocks the backend accepts: the supported gates, constant generators, scale factors readable when values are given per
      expression. *)
  Fixpoint convertible (g : bool) (b : block) : Prop :=
    match b with
    | BChain bs | BKron bs | BAdd bs => fold_right (fun x k => convertible g x /\ k) True bs
    | BScale b' e => convertible g b' /\ (g = false -> scale_ok (bparams b') e)
    | BEvo gen _ => NoDup (sup si gen) /\ (forall s, In s (bparams gen) -> is_time s = false) /\ convertible g gen
    | BPrim p _ => p <> PTdg /\ p <> PN false
    | BCtrl _ b' => exists q, b' = BPrim PX q \/ b' = BPrim PZ q
    | BPCtrl _ b' => exists r q e, b' = BRot r q e
    | _ => True
    end.
  Lemma convertible_comp g k bs : convertible g (comp k bs) <-> Forall (convertible g) bs.
  Proof. destruct k; simpl; apply all_forall. Qed.
  Lemma bparams_comp k bs : bparams (comp k bs) = flat_map bparams bs. Proof. destruct k; reflexivity. Qed.

  Lemma incl_nil_eq {A} (l l' : list A) : incl l l' -> l' = [] -> l = [].
  Proof. intros H ->. destruct l; [reflexivity|]. destruct (H a (or_introl eq_refl)). Qed.

  (** What the passes keep. *)
  Definition kept g (b y : block) : Prop := incl (bparams y) (bparams b) /\ (convertible g b -> convertible g y).
  Definition keptl g (b : block) (ys : list block) : Prop :=
    incl (flat_map bparams ys) (bparams b) /\ (convertible g b -> Forall (convertible g) ys).

  Lemma keptl_list g bs ls : Forall2 (keptl g) bs ls ->
    incl (flat_map bparams (concat ls)) (flat_map bparams bs) /\ (Forall (convertible g) bs -> Forall (convertible g) (concat ls)).
  Proof.
    induction 1 as [|b l bs ls [H1 H2] F [IH1 IH2]]; [split; [apply incl_refl|auto]|]. cbn [concat flat_map]. rewrite flat_map_app. split.
    - apply incl_app; [apply incl_appl; exact H1|apply incl_appr; exact IH1].
    - intros H. inversion H; subst. apply Forall_app. split; auto.
  Qed.
  Lemma kept_list g bs ys : Forall2 (kept g) bs ys ->
    incl (flat_map bparams ys) (flat_map bparams bs) /\ (Forall (convertible g) bs -> Forall (convertible g) ys).
  Proof.
    induction 1 as [|b l bs ls [H1 H2] F [IH1 IH2]]; [split; [apply incl_refl|auto]|]. cbn [flat_map]. split.
    - apply incl_app; [apply incl_appl; exact H1|apply incl_appr; exact IH1].
    - intros H. inversion H; subst. constructor; auto.
  Qed.

  Lemma osequence_F2 {A B} (f : A -> option B) (P : A -> B -> Prop) l ys :
    osequence (map f l) = Some ys -> (forall a b, In a l -> f a = Some b -> P a b) -> Forall2 P l ys.
  Proof.
    revert ys. induction l as [|a l IH]; intros ys E H; simpl in E.
    - injection E as <-. constructor.
    - destruct (f a) as [b|] eqn:Ea; [|discriminate]. cbn in E. destruct (osequence (map f l)) as [l'|]; [|discriminate].
      injection E as <-. constructor; [apply H; [left; reflexivity|exact Ea]|]. apply IH; [reflexivity|]. intros; apply H; [right|]; assumption.
  Qed.

  Lemma kept_refl g b : kept g b b. Proof. split; [apply incl_refl|auto]. Qed.

  Lemma flat_kept g T b :
    (forall ls, fst (flatp si T b) = Some ls -> keptl g b ls) /\ (forall y, snd (flatp si T b) = Some y -> kept g b y).
  Proof.
    induction b as [k bs IH|b e [_ IH]|b Hk Hsc] using skel_ind.
    - rewrite flatp_comp.
      assert (HL : forall ls, fst (flatg si T k bs) = Some ls -> keptl g (comp k bs) ls).
      { intros ls. unfold flatg. cbn [fst]. unfold keptl. rewrite bparams_comp, convertible_comp. destruct (kind_eqb k T).
        - intros E. unfold omap in E at 1. destruct (osequence _) as [lss|] eqn:E0; [|discriminate]. cbn [obind] in E. injection E as <-.
          apply keptl_list. eapply osequence_F2; [exact E0|]. intros x l Hx El. rewrite Forall_forall in IH. destruct (IH x Hx) as [I1 I2]. cbv beta in El.
          destruct (is_kind T x); [apply I1; exact El|]. unfold omap in El. destruct (snd (flatp si T x)) as [y|]; [|discriminate]. cbn in El. injection El as <-.
          destruct (I2 y eq_refl) as [J1 J2]. split; [cbn; rewrite app_nil_r; exact J1|]. intros H; constructor; auto.
        - intros E. apply kept_list. eapply osequence_F2; [exact E|]. intros x y Hx Ey. rewrite Forall_forall in IH. apply (IH x Hx). exact Ey. }
      split; [exact HL|]. intros y. unfold flatg in *. cbn [fst snd] in *.
      match goal with |- context [obind ?t _] => destruct t as [ys|] eqn:E end; [|discriminate]. cbn [obind]. intros Ey.
      destruct (construct_inv si Hs k ys y Ey) as [-> _]. destruct (HL ys eq_refl) as [H1 H2].
      split; [rewrite bparams_comp; exact H1|]. intros H. apply convertible_comp. auto.
    - assert (HS : forall y, snd (flatp si T (BScale b e)) = Some y -> kept g (BScale b e) y).
      { intros y. cbn [flatp snd]. unfold omap. destruct (snd (flatp si T b)) as [z|]; [|discriminate]. cbn [obind]. intros E. injection E as <-.
        destruct (IH z eq_refl) as [I1 I2]. split; [cbn [bparams]; apply incl_app; [apply incl_appl, incl_refl|apply incl_appr; exact I1]|].
        cbn [convertible]. intros [C1 C2]. split; [auto|]. intros Eg. destruct (C2 Eg) as [[V P]|D]; [left; split; [exact V|eapply incl_nil_eq; eassumption]|right; exact D]. }
      split; [|exact HS]. intros ls E. cbn [flatp fst] in E. unfold omap in E at 1. cbn [flatp snd] in HS.
      destruct (omap (fun y : block => BScale y e) (snd (flatp si T b))) as [z|]; [|discriminate]. cbn in E. injection E as <-.
      destruct (HS z eq_refl) as [I1 I2]. split; [cbn; rewrite app_nil_r; exact I1|]. intros H; constructor; auto.
    - rewrite flatp_other by assumption. split.
      + intros ls E. injection E as <-. split; [cbn; rewrite app_nil_r; apply incl_refl|]. intros H; constructor; auto.
      + intros y E. injection E as <-. apply kept_refl.
  Qed.

  Lemma kept_trans g a b c : kept g a b -> kept g b c -> kept g a c.
  Proof. intros [H1 H2] [H3 H4]. split; [eapply incl_tran; eassumption|auto]. Qed.

  Lemma flat_fold g b y : forall types acc, match acc with Some x => kept g b x | None => True end ->
       fold_left (fun acc T => obind acc (fun x => snd (flatp si T x))) types acc = Some y -> kept g b y.
  Proof.
    induction types as [|T types IH]; intros acc Ha E; cbn [fold_left] in E.
    - subst acc. exact Ha.
    - apply (IH _) in E; [exact E|]. destruct acc as [x|]; cbn [obind]; [|exact I].
      destruct (snd (flatp si T x)) as [z|] eqn:Ez; [|exact I]. eapply kept_trans; [exact Ha|]. apply (proj2 (flat_kept g T x)). exact Ez.
  Qed.
  Lemma flatten_kept g types b : forall y, flatten si types b = Some y -> kept g b y.
  Proof.
    induction b as [k bs IH|b e IH|b Hk Hsc] using skel_ind; intros y E.
    - apply (flat_fold g _ y types (Some (comp k bs))); [apply kept_refl|]. destruct k; exact E.
    - cbn [flatten] in E. unfold omap in E. destruct (flatten si types b) as [z|] eqn:Ez; [|discriminate]. cbn in E. injection E as <-.
      destruct (IH z eq_refl) as [I1 I2]. split; [cbn [bparams]; apply incl_app; [apply incl_appl, incl_refl|apply incl_appr; exact I1]|].
      cbn [convertible]. intros [C1 C2]. split; [auto|]. intros Eg. destruct (C2 Eg) as [[V P]|D]; [left; split; [exact V|eapply incl_nil_eq; eassumption]|right; exact D].
    - assert (y = b) by (destruct b; simpl in *; try discriminate; try tauto; congruence). subst. apply kept_refl.
  Qed.

  (** chain_single_qubit_ops only rearranges. *)
  Lemma zip_round_in ids : forall st col st', zip_round ids st = Some (col, st') ->
    (forall x, In x col -> exists i, In x (st i)) /\ (forall i x, In x (st' i) -> In x (st i)).
  Proof.
    induction ids as [|i ids IH]; intros st col st' E; cbn [zip_round] in E.
    - injection E as <- <-. split; [intros x []|auto].
    - destruct (st i) as [|b l] eqn:Ei; [discriminate|]. destruct (zip_round ids (set_it st i l)) as [[c s]|] eqn:Er; [|discriminate].
      cbn in E. injection E as <- <-. destruct (IH _ _ _ Er) as [I1 I2].
      assert (K : forall j x, In x (set_it st i l j) -> In x (st j)).
      { intros j x. unfold set_it. destruct (Nat.eqb_spec j i); [subst; rewrite Ei; right; assumption|auto]. }
      split.
      + intros x [<-|Hx]; [exists i; rewrite Ei; left; reflexivity|]. destruct (I1 x Hx) as [j Hj]. exists j. apply K, Hj.
      + intros j x Hx. apply K, I2, Hx.
  Qed.
  Lemma zip_loop_in fuel ids : forall st col x, In col (zip_loop fuel ids st) -> In x col -> exists i, In x (st i).
  Proof.
    induction fuel as [|fuel IH]; intros st col x Hc Hx; cbn [zip_loop] in Hc; [destruct Hc|].
    destruct (zip_round ids st) as [[c s]|] eqn:E; [|destruct Hc]. destruct (zip_round_in _ _ _ _ E) as [I1 I2]. cbn in Hc.
    destruct Hc as [<-|Hc]; [apply I1, Hx|]. destruct (IH s col x Hc Hx) as [i Hi]. exists i. apply I2, Hi.
  Qed.
  Lemma zip_layers_in ids layers col x : In col (zip_layers ids layers) -> In x col -> exists b, In b layers /\ In x (children b).
  Proof.
    intros Hc Hx. unfold zip_layers in Hc. destruct (zip_loop_in _ _ _ _ _ Hc Hx) as [i Hi]. revert Hi.
    assert (K : forall l st, (forall i x, In x (st i) -> exists b, In b layers /\ In x (children b)) ->
        (forall p, In p l -> In (snd p) layers) ->
        forall i x, In x (fold_left (fun st p => set_it st (fst p) (children (snd p))) l st i) -> exists b, In b layers /\ In x (children b)).
    { induction l as [|p l IH]; intros st H1 H2 j z Hz; cbn [fold_left] in Hz; [eauto|].
      eapply IH; [| |exact Hz].
      - intros k w. unfold set_it. destruct (Nat.eqb k (fst p)); [|apply H1]. intros Hw. exists (snd p). split; [apply H2; left; reflexivity|exact Hw].
      - intros; apply H2; right; assumption. }
    apply K; [intros ? ? []|]. intros [a b] Hp. apply in_combine_r in Hp. exact Hp.
  Qed.
  Lemma child_kept g b x : In x (children b) -> kept g b x.
  Proof.
    intros H. destruct (block_cases b) as [(k & bs & ->)|D].
    - assert (Hb : In x bs) by (destruct k; exact H). split.
      + rewrite bparams_comp. intros s Hx. apply in_flat_map. eauto.
      + intros C. apply (proj1 (convertible_comp g k bs)) in C. rewrite Forall_forall in C. auto.
    - assert (E : children b = [b]) by (destruct D as [(b' & e & ->)|[D1 D2]]; [reflexivity|destruct b; try discriminate; reflexivity]).
      rewrite E in H. destruct H as [<-|[]]. apply kept_refl.
  Qed.

  Lemma chain_ops_kept g ident b : forall y, chain_ops si ident b = Some y -> kept g b y.
  Proof.
    assert (HR : forall k bs y, Forall (fun b => forall y, chain_ops si ident b = Some y -> kept g b y) bs ->
      obind (osequence (map (chain_ops si ident) bs)) (construct si k) = Some y -> kept g (comp k bs) y).
    { intros k bs y IH E. destruct (osequence _) as [ys|] eqn:E0; [|discriminate]. cbn in E.
      destruct (construct_inv si Hs k ys y E) as [-> _].
      destruct (kept_list g bs ys) as [K1 K2].
      { eapply osequence_F2; [exact E0|]. intros a c Ha Ec. rewrite Forall_forall in IH. apply (IH a Ha). exact Ec. }
      split; [rewrite !bparams_comp; exact K1|]. intros H. apply convertible_comp. apply K2. apply (proj1 (convertible_comp g k bs)). exact H. }
    induction b as [k bs IH|b e IH|b Hk Hsc] using skel_ind; intros y E.
    - destruct k; [|apply (HR KKron); assumption|apply (HR KAdd); assumption].
      cbn [chain_ops comp] in E. change (children (BChain bs)) with bs in E.
      destruct (is_chain_of_primitivekrons si (BChain bs)); [|apply (HR KChain); assumption].
      destruct (mk_kron si (map BChain (zip_layers (ident bs) bs))) as [z|] eqn:Ez; injection E as <-; [|apply kept_refl].
      destruct (construct_inv si Hs KKron _ _ Ez) as [-> _]. cbn [comp].
      assert (K : forall c, In c (map BChain (zip_layers (ident bs) bs)) -> kept g (BChain bs) c).
      { intros c Hc. apply in_map_iff in Hc as (col & <- & Hcol).
        assert (KC : forall x, In x col -> kept g (BChain bs) x).
        { intros x Hx. destruct (zip_layers_in _ _ _ _ Hcol Hx) as (b & Hb & Hxb).
          eapply kept_trans; [apply (child_kept g (BChain bs) b); exact Hb|apply child_kept; exact Hxb]. }
        split.
        - cbn [bparams]. intros s Hsx. apply in_flat_map in Hsx as (x & Hx & Hsx). apply (KC x Hx). exact Hsx.
        - intros C. apply (convertible_comp g KChain col). apply Forall_forall. intros x Hx. apply (KC x Hx). exact C. }
      split.
      + cbn [bparams]. intros s Hsx. apply in_flat_map in Hsx as (x & Hx & Hsx). apply (K x Hx). exact Hsx.
      + intros C. apply (convertible_comp g KKron). apply Forall_forall. intros x Hx. apply (K x Hx). exact C.
    - injection E as <-. apply kept_refl.
    - assert (y = b) by (destruct b; simpl in *; try discriminate; try tauto; congruence). subst. apply kept_refl.
  Qed.

  Lemma rebuild_id b : krons_ok b -> rebuild si b = Some b.
  Proof.
    induction b as [k bs IH|b e IH|b Hk Hsc] using skel_ind; intros H.
    - apply krons_ok_comp in H as [H1 H2].
      assert (E : osequence (map (rebuild si) bs) = Some bs).
      { apply osequence_some. apply map_ext_in. intros x Hx. rewrite Forall_forall in *. auto. }
      transitivity (obind (osequence (map (rebuild si) bs)) (construct si k)); [destruct k; reflexivity|].
      rewrite E. cbn. apply construct_ok; assumption.
    - reflexivity.
    - destruct b; simpl in *; try discriminate; try reflexivity.
  Qed.

  (** The scale factors in the tree (not inside generators). *)
  Fixpoint scales (b : block) : list expr :=
    match b with
    | BChain bs | BKron bs | BAdd bs => flat_map scales bs
    | BScale b' e => e :: scales b'
    | _ => []
    end.
  (** The leaves, each with its scale factor if it has one. *)
  Fixpoint sleaves (b : block) : list block :=
    match b with BChain bs | BKron bs | BAdd bs => flat_map sleaves bs | _ => [b] end.
  Lemma scales_comp' k bs : scales (comp k bs) = flat_map scales bs. Proof. destruct k; reflexivity. Qed.
  Lemma sleaves_comp k bs : sleaves (comp k bs) = flat_map sleaves bs. Proof. destruct k; reflexivity. Qed.
  Lemma sleaves_other b : kind_of b = None -> sleaves b = [b].
  Proof. destruct b; simpl; congruence. Qed.
  Lemma convertible_sleaves g b : (forall x, In x (sleaves b) -> convertible g x) -> convertible g b.
  Proof.
    induction b as [k bs IH|b e IH|b Hk Hsc] using skel_ind; intros H.
    - apply convertible_comp. rewrite Forall_forall in *. intros x Hx. apply (IH x Hx). intros z Hz. apply H. rewrite sleaves_comp. apply in_flat_map. eauto.
    - apply H. left; reflexivity.
    - apply H. rewrite sleaves_other by exact Hk. left; reflexivity.
  Qed.

  Definition scaled_leaf (E : expr -> Prop) (b : block) (x : block) : Prop :=
    exists gt, In gt (gates b) /\ (x = gt \/ exists e, x = BScale gt e /\ E e).

  Lemma scaled_leaf_mono E b b' x : incl (gates b) (gates b') -> scaled_leaf E b x -> scaled_leaf E b' x.
  Proof. intros H (gt & Hg & D). exists gt. split; [apply H, Hg|exact D]. Qed.

  Lemma scale_prims_leaves (E : expr -> Prop) : (forall a b, E a -> E b -> E (EMul a b)) -> forall b s y,
    scale_prims si s b = Some y -> Forall E (scales b) -> match s with Some e => E e | None => True end ->
    forall x, In x (sleaves y) -> scaled_leaf E b x.
  Proof.
    intros HM. induction b as [k bs IH|b e IH|b Hk Hsc] using skel_ind; intros s y Ey HE HsE x Hx.
    - rewrite scales_comp' in HE. rewrite Forall_forall in IH.
      assert (HEb : forall b, In b bs -> Forall E (scales b)).
      { intros b Hb. rewrite Forall_forall in *. intros e He. apply HE. apply in_flat_map. eauto. }
      assert (HL : forall ss ys, Forall2 (fun bs_ y => scale_prims si (snd bs_) (fst bs_) = Some y /\ In (fst bs_) bs /\ match snd bs_ with Some e => E e | None => True end) ss ys ->
        forall x, In x (flat_map sleaves ys) -> scaled_leaf E (comp k bs) x).
      { induction 1 as [|[b0 s0] y0 ss ys (E0 & H0 & S0) F IHF]; intros z Hz; cbn [flat_map] in Hz; [destruct Hz|].
        apply in_app_iff in Hz as [Hz|Hz]; [|auto]. cbn [fst snd] in *.
        eapply scaled_leaf_mono; [|eapply (IH b0 H0); [exact E0|apply HEb; exact H0|exact S0|exact Hz]].
        rewrite gates_comp. intros w Hw. apply in_flat_map. eauto. }
      assert (FIRST : forall k0, k = k0 -> (k0 = KChain \/ k0 = KKron) -> scaled_leaf E (comp k bs) x).
      { intros k0 Ek Dk. destruct bs as [|b0 r].
        - assert (Y : Some (comp k []) = Some y) by (rewrite <- Ey; destruct Dk as [D|D]; rewrite Ek, D; reflexivity). injection Y as <-. rewrite sleaves_comp in Hx. destruct Hx.
        - assert (E1 : obind (osequence (scale_prims si s b0 :: map (scale_prims si None) r)) (construct si k) = Some y).
          { rewrite <- Ey. destruct Dk as [D|D]; rewrite Ek, D; reflexivity. }
          clear Ey. cbn [osequence obind] in E1. destruct (scale_prims si s b0) as [y0|] eqn:E0; [|discriminate]. cbn [obind] in E1.
          destruct (osequence (map (scale_prims si None) r)) as [ys|] eqn:Er; [|discriminate]. cbn [obind] in E1.
          destruct (construct_inv si Hs k (y0 :: ys) y E1) as [-> _]. rewrite sleaves_comp in Hx.
          eapply (HL ((b0, s) :: map (fun b => (b, None)) r) (y0 :: ys)); [|exact Hx].
          constructor; [cbn; repeat split; auto|]. clear -Er.
          assert (F := osequence_F2 (scale_prims si None) (fun a c => scale_prims si None a = Some c) r ys Er (fun a b _ h => h)).
          assert (G : forall r' ys', (forall a, In a r' -> In a (b0 :: r)) -> Forall2 (fun a c => scale_prims si None a = Some c) r' ys' ->
            Forall2 (fun bs_ y => scale_prims si (snd bs_) (fst bs_) = Some y /\ In (fst bs_) (b0 :: r) /\ match snd bs_ with Some e => E e | None => True end)
              (map (fun b => (b, None)) r') ys').
          { intros r' ys' Hin F'. induction F'; cbn [map]; constructor; [cbn; repeat split; [assumption|apply Hin; left; reflexivity]|].
            apply IHF'. intros; apply Hin; right; assumption. }
          apply G; [intros; right; assumption|exact F]. }
      destruct k; [apply (FIRST KChain); auto|apply (FIRST KKron); auto|].
      cbn [scale_prims comp] in Ey. unfold omap in Ey. destruct (osequence (map (scale_prims si s) bs)) as [ys|] eqn:Es; [|discriminate].
      cbn in Ey. injection Ey as <-. cbn [sleaves] in Hx.
      eapply (HL (map (fun b => (b, s)) bs) ys); [|exact Hx].
      assert (F := osequence_F2 (scale_prims si s) (fun a c => scale_prims si s a = Some c) bs ys Es (fun a b _ h => h)).
      assert (G : forall r' ys', (forall a, In a r' -> In a bs) -> Forall2 (fun a c => scale_prims si s a = Some c) r' ys' ->
            Forall2 (fun bs_ y => scale_prims si (snd bs_) (fst bs_) = Some y /\ In (fst bs_) bs /\ match snd bs_ with Some e => E e | None => True end)
              (map (fun b => (b, s)) r') ys').
      { intros r' ys' Hin F'. induction F'; cbn [map]; constructor; [cbn; repeat split; [assumption|apply Hin; left; reflexivity|assumption]|].
        apply IHF'. intros; apply Hin; right; assumption. }
      apply G; auto.
    - cbn [scale_prims] in Ey. cbn [scales] in HE. inversion HE as [|? ? He HE']; subst.
      destruct (IH _ _ Ey HE') with (x := x) as (gt & Hg & D); [destruct s; [apply HM; assumption|exact He]|exact Hx|].
      exists gt. split; [exact Hg|exact D].
    - rewrite scale_prims_other in Ey by assumption.
      assert (G : gates b = [b]) by (destruct b; simpl in *; try discriminate; try tauto; reflexivity).
      destruct s as [e|]; injection Ey as <-.
      + assert (O : op_scale b e = b \/ op_scale b e = BScale b e).
        { destruct b as [p q| | | | | | | | | | | | | ]; try (right; reflexivity); [destruct p; auto|]. simpl in Hsc. tauto. }
        exists b. rewrite G. split; [left; reflexivity|].
        destruct O as [O|O]; rewrite O in Hx.
        * rewrite sleaves_other in Hx by exact Hk. destruct Hx as [<-|[]]. left; reflexivity.
        * destruct Hx as [<-|[]]. right. eauto.
      + rewrite sleaves_other in Hx by exact Hk. destruct Hx as [<-|[]]. exists b. rewrite G. split; [left; reflexivity|left; reflexivity].
  Qed.
End Convertible.
