(** C51: the default simulation backend runs the block it is given: the compiled program denotes the block's operator. *)
From Coq Require Import String Reals List Arith Bool Lia Lra FunctionalExtensionality ZArith.
From Coquelicot Require Import Coquelicot.
From Coq Require Import List.
From Verif Require Import S_Sets S_Ops M_QubitSupport M_Block S_Den L_Ops L_Den L_Loc M_BlockOps L_Support M_Tensor L_Tensor S_Transpile M_Transpile L_Transpile M_Fill
  M_Convert S_Native L_Convert P_States P_Dagger P_Flatten P_ChainOps.
Import ListNotations.
Open Scope string_scope.
Open Scope list_scope.
Open Scope R_scope.
Open Scope C_scope.

(** * Scale expressions *)
Section SxInd.
  Variable P : sx -> Prop.
  Hypothesis HNum : forall x, P (SNum x).
  Hypothesis HImag : P SImag.
  Hypothesis HSym : forall s, P (SSym s).
  Hypothesis HFun : forall f args, Forall P args -> P (SFun f args).
  Fixpoint sx_ind' (e : sx) : P e :=
    match e with
    | SNum x => HNum x
    | SImag => HImag
    | SSym s => HSym s
    | SFun f args => HFun f args ((fix all (l : list sx) : Forall P l :=
        match l with [] => Forall_nil P | x :: r => @Forall_cons _ P x r (sx_ind' x) (all r) end) args)
    end.
End SxInd.

(** Specification: the value of a sympy expression.  [look]: the values of the symbols; [sem]: sympy's functions. *)
Definition functions : list string :=
  ["Pow"; "cos"; "sin"; "tan"; "acos"; "asin"; "atan"; "tanh"; "log"; "exp"; "Abs"; "Heaviside"].
Fixpoint sval (sem : string -> list C -> option C) (look : string -> option C) (e : sx) : option C :=
  match e with
  | SNum x => Some (RtoC x)
  | SImag => None
  | SSym s => look s
  | SFun f args =>
      obind (osequence (map (sval sem look) args)) (fun vs =>
        if String.eqb f "Add" then if Nat.leb 2 (length vs) then Some (fold_right Cplus (RtoC 0) vs) else None
        else if String.eqb f "Mul" then if Nat.leb 2 (length vs) then Some (fold_right Cmult (RtoC 1) vs) else None
        else if existsb (String.eqb f) functions then if Nat.leb (length vs) 2 then sem f vs else None
        else None)
  end.
(** pyqtorch's ConcretizedCallable computes the function of the same mathematical meaning. *)
Definition same_functions (sem ap : string -> list C -> option C) : Prop :=
  (forall x y, ap "add" [x; y] = Some (x + y)) /\ (forall x y, ap "mul" [x; y] = Some (x * y)) /\
  forall f name args, In (f, name) [("Pow", "pow"); ("cos", "cos"); ("sin", "sin"); ("tan", "tan"); ("acos", "acos"); ("asin", "asin");
    ("atan", "atan"); ("tanh", "tanh"); ("log", "log"); ("exp", "exp"); ("Abs", "abs"); ("Heaviside", "hs")] -> ap name args = sem f args.

Lemma reduce_eval ap look name op : (forall x y, ap name [x; y] = Some (op x y)) ->
  forall r vs x v, pc_eval ap look x = Some v -> osequence (map (pc_eval ap look) r) = Some vs ->
  pc_eval ap look (fold_left (fun x y => PCall name [x; y]) r x) = Some (fold_left op vs v).
Proof.
  intros H r. induction r as [|y r IH]; intros vs x v Ex Er; cbn [map osequence] in Er.
  - injection Er as <-. exact Ex.
  - destruct (pc_eval ap look y) as [w|] eqn:Ey; [|discriminate]. cbn in Er. destruct (osequence (map (pc_eval ap look) r)) as [ws|] eqn:Ew; [|discriminate].
    cbn in Er. injection Er as <-. cbn [fold_left]. apply IH; [|reflexivity]. cbn [pc_eval map osequence]. rewrite Ex, Ey. cbn. apply H.
Qed.
Lemma fold_plus vs : forall v, fold_left Cplus vs v = v + fold_right Cplus (RtoC 0) vs.
Proof. induction vs as [|w vs IH]; intros v; simpl; [ring|]. rewrite IH. ring. Qed.
Lemma fold_mult vs : forall v, fold_left Cmult vs v = v * fold_right Cmult (RtoC 1) vs.
Proof. induction vs as [|w vs IH]; intros v; simpl; [ring|]. rewrite IH. ring. Qed.

(** Sums and products of any number of terms, and nested functions, keep their value. *)
Theorem C51_scale_expression : forall sem ap look e v, same_functions sem ap -> sval sem look e = Some v ->
  exists p, sympy_to_pyq e = Some p /\ pc_eval ap look p = Some v.
Proof.
  intros sem ap look e v (Ha & Hm & Hf). revert v. induction e as [x| |s|f args IH] using sx_ind'; intros v E; cbn [sval] in E.
  - exists (PCst x). split; [reflexivity|exact E].
  - discriminate.
  - exists (PKey s). split; [reflexivity|exact E].
  - destruct (osequence (map (sval sem look) args)) as [vs|] eqn:Ev; [|discriminate]. cbn [obind] in E.
    assert (R : exists ps, osequence (map sympy_to_pyq args) = Some ps /\ osequence (map (pc_eval ap look) ps) = Some vs).
    { clear E. revert vs Ev. induction IH as [|a l Ha' F IHF]; intros vs Ev; cbn [map osequence] in *.
      - injection Ev as <-. exists []. split; reflexivity.
      - destruct (sval sem look a) as [w|]; [|discriminate]. cbn in Ev. destruct (osequence (map (sval sem look) l)) as [ws|]; [|discriminate].
        cbn in Ev. injection Ev as <-. destruct (IHF ws eq_refl) as (ps & P1 & P2). destruct (Ha' w eq_refl) as (p & Q1 & Q2).
        exists (p :: ps). cbn [map osequence]. rewrite Q1, P1, Q2, P2. split; reflexivity. }
    destruct R as (ps & P1 & P2). cbn [sympy_to_pyq]. rewrite P1. cbn [obind].
    assert (L : length ps = length vs).
    { clear -P2. revert vs P2. induction ps as [|p ps IH]; intros vs P; cbn [map osequence] in P; [injection P as <-; reflexivity|].
      destruct (pc_eval ap look p); [|discriminate]. cbn in P. destruct (osequence (map (pc_eval ap look) ps)); [|discriminate]. cbn in P. injection P as <-.
      cbn. f_equal. apply IH. reflexivity. }
    assert (K : forall name op (d : C), pyq_name f = Some name -> (forall x y, ap name [x; y] = Some (op x y)) ->
      (forall vs v, fold_left op vs v = op v (fold_right op d vs)) -> (forall x, op x d = x) -> (2 <= length vs)%nat ->
      exists p, obind (pyq_name f) (fun name => if Nat.ltb 2 (length ps) then reduce (fun x y => PCall name [x; y]) ps else Some (PCall name ps)) = Some p /\
        pc_eval ap look p = Some (fold_right op d vs)).
    { intros name op d Hn Hop Hfold Hd HL. rewrite Hn. cbn [obind].
      destruct ps as [|p1 [|p2 r]]; cbn [length] in L; try lia. cbn [map osequence] in P2.
      destruct (pc_eval ap look p1) as [w1|] eqn:E1; [|discriminate]. cbn in P2. destruct (pc_eval ap look p2) as [w2|] eqn:E2; [|discriminate]. cbn in P2.
      destruct (osequence (map (pc_eval ap look) r)) as [ws|] eqn:E3; [|discriminate]. cbn in P2. injection P2 as <-.
      assert (B : pc_eval ap look (PCall name [p1; p2]) = Some (op w1 w2)) by (cbn [pc_eval map osequence]; rewrite E1, E2; cbn; apply Hop).
      destruct (Nat.ltb_spec 2 (length (p1 :: p2 :: r))) as [Hl|Hl].
      - cbn [reduce fold_left]. eexists. split; [reflexivity|]. rewrite (reduce_eval ap look name op Hop r ws _ (op w1 w2) B E3).
        f_equal. change (fold_left op ws (op w1 w2)) with (fold_left op (w2 :: ws) w1). rewrite Hfold. reflexivity.
      - destruct r; [|cbn in Hl; lia]. cbn in E3. injection E3 as <-. eexists. split; [reflexivity|]. rewrite B. cbn. rewrite Hd. reflexivity. }
    destruct (String.eqb_spec f "Add") as [->|NA].
    { destruct (Nat.leb_spec 2 (length vs)); [|discriminate]. injection E as <-. apply (K "add"%string Cplus (RtoC 0) eq_refl Ha fold_plus); [intros; ring|assumption]. }
    destruct (String.eqb_spec f "Mul") as [->|NM].
    { destruct (Nat.leb_spec 2 (length vs)); [|discriminate]. injection E as <-. apply (K "mul"%string Cmult (RtoC 1) eq_refl Hm fold_mult); [intros; ring|assumption]. }
    destruct (existsb (String.eqb f) functions) eqn:X; [|discriminate]. destruct (Nat.leb_spec (length vs) 2); [|discriminate].
    apply existsb_exists in X as (f' & Hin & Heq). apply String.eqb_eq in Heq. subst f'.
    destruct (Nat.ltb_spec 2 (length ps)); [lia|].
    repeat (destruct Hin as [<- | Hin]; [eexists; split; [reflexivity|]; cbn [pc_eval]; rewrite P2; cbn [obind]; rewrite <- E; apply Hf; cbn [In]; tauto|]).
    destruct Hin.
Qed.

(** * The conversion of one block *)
Section One.
  Variable si : list nat -> list nat.
  Hypothesis Hs : set_order si.
  Variable pn : string -> read_name.
  Variable num_hash : C -> Z.
  Variable is_time : string -> bool.
  Variable merge : bool.
  Variable ap : string -> list C -> option C.
  Hypothesis Hap : calls_ok ap.
  Variable solve : pyqop -> Op.
  Variable known : string -> bool.
  Variable rho : env.
  Local Notation conv := (convert si pn num_hash is_time merge).
  Local Notation qd g := (qden ap solve g known rho).
  Local Notation convertible := (convertible si pn known num_hash is_time).

  Lemma parametric_nil b : is_parametric b = false -> bparams b = [].
  Proof. unfold is_parametric. destruct (bparams b); [reflexivity|discriminate]. Qed.

  Lemma angle_rot g b e : bparams b = vars e -> angle ap g known rho (rot_param g b e) = Some (ang rho e).
  Proof.
    intros Hb. unfold rot_param. destruct (is_parametric b) eqn:P.
    - unfold angle, pv_eval. rewrite eqb_reflx. reflexivity.
    - apply parametric_nil in P. rewrite Hb in P. unfold angle, pv_eval, ang. cbn. rewrite (ev_const rho e P). reflexivity.
  Qed.
  Lemma angle_key g e : angle ap g known rho (VKey g e) = Some (ang rho e).
  Proof. unfold angle, pv_eval. rewrite eqb_reflx. reflexivity. Qed.

  Lemma scale_value g b e : (g = false -> scale_ok pn known num_hash (bparams b) e) ->
    exists v, scale_param pn num_hash g (BScale b e) e = Some v /\ pv_eval ap g known rho v = Some (ev rho e).
  Proof.
    intros H. unfold scale_param. destruct (is_parametric (BScale b e)) eqn:P.
    - destruct g; [eexists; split; [reflexivity|reflexivity]|]. destruct (H eq_refl) as [[V B]|[[V N]|[V S]]].
      + unfold is_parametric in P. cbn [bparams] in P. rewrite V, B in P. discriminate.
      + rewrite V. destruct (Z.ltb_spec (num_hash (cval e)) 0); [lia|]. eexists; split; reflexivity.
      + destruct (parse_plain ap pn known rho e Hap S) as (x & p & E1 & E2 & E3).
        destruct (vars e); [congruence|]. rewrite E1. cbn [obind omap]. unfold omap. rewrite E2. eexists. split; [reflexivity|]. exact E3.
    - apply parametric_nil in P. cbn [bparams] in P. apply app_eq_nil in P as [P _]. eexists. split; [reflexivity|]. cbn. rewrite (ev_const rho e P). reflexivity.
  Qed.

  Definition goes (g : bool) (b : block) : Prop := exists o, conv g b = Some (o, g) /\ qd g o = Some (den rho b).

  Lemma convert_list g bs : Forall (goes g) bs -> exists os,
    (fix go (g : bool) (bs : list block) : option (list pyqop * bool) :=
      match bs with
      | [] => Some ([], g)
      | x :: r => obind (conv g x) (fun p => obind (go (snd p) r) (fun q => Some (fst p :: fst q, snd q)))
      end) g bs = Some (os, g) /\ osequence (map (qd g) os) = Some (map (den rho) bs).
  Proof.
    induction 1 as [|b bs (o & E1 & E2) F (os & G1 & G2)]; [exists []; split; reflexivity|]. exists (o :: os). rewrite E1. cbn [obind fst snd].
    rewrite G1. split; [reflexivity|]. cbn [map osequence]. rewrite E2, G2. reflexivity.
  Qed.
  Lemma fold_seq bs : fold_right seqop idop (map (den rho) bs) = fold_right (fun b k => seqop (den rho b) k) idop bs.
  Proof. induction bs as [|b bs IH]; simpl; [reflexivity|]. rewrite IH. reflexivity. Qed.
  Lemma fold_add bs : fold_right addop zeroop (map (den rho) bs) = fold_right (fun b k => addop (den rho b) k) zeroop bs.
  Proof. induction bs as [|b bs IH]; simpl; [reflexivity|]. rewrite IH. reflexivity. Qed.

  Lemma convert_ok g b : convertible g b -> goes g b.
  Proof.
    induction b as [p q|kt br qs|r q e|q x y z|a b|c a b|cs b IH|cs b IH|b e IH|bs IH|bs IH|bs IH|m qs|gen t IH] using block_ind'; intros H.
    - destruct H as [H1 H2]. destruct p as [| | | | | | | | | |[|]]; try congruence; eexists; split; reflexivity.
    - eexists; split; reflexivity.
    - eexists; split; [reflexivity|]. cbn [qden]. rewrite angle_rot by reflexivity. reflexivity.
    - eexists; split; [reflexivity|]. cbn [qden]. rewrite !angle_key. reflexivity.
    - eexists; split; reflexivity.
    - eexists; split; reflexivity.
    - destruct H as (q & [-> | ->]); eexists; (split; [reflexivity|]); cbn [qden sup bsup locals]; unfold sup; cbn; rewrite removelast_last, last_last; reflexivity.
    - destruct H as (r & q & e & ->). eexists; split; [reflexivity|]. cbn [qden]. rewrite angle_rot by reflexivity.
      unfold sup; cbn. rewrite removelast_last, last_last. reflexivity.
    - destruct H as [H1 H2]. destruct (IH H1) as (o & E1 & E2). destruct (scale_value g b e H2) as (v & V1 & V2).
      exists (QScale (QSeq [o]) v). cbn [convert]. rewrite E1. cbn [obind fst snd]. rewrite V1. split; [reflexivity|].
      cbn [qden map osequence]. rewrite E2. cbn [obind omap fold_right]. unfold omap. cbn [obind]. rewrite V2. reflexivity.
    - apply (convertible_comp si pn known num_hash is_time g KChain bs) in H. assert (F : Forall (goes g) bs) by (rewrite Forall_forall in *; auto).
      destruct (convert_list g bs F) as (os & E1 & E2). unfold goes. cbn [convert]. rewrite E1. cbn [obind fst snd]. eexists; split; [reflexivity|].
      destruct (is_single_qubit_chain si (BChain bs) && merge); cbn [qden]; rewrite E2; cbn [omap obind]; unfold omap; cbn [obind]; rewrite fold_seq; reflexivity.
    - apply (convertible_comp si pn known num_hash is_time g KKron bs) in H. assert (F : Forall (goes g) bs) by (rewrite Forall_forall in *; auto).
      destruct (convert_list g bs F) as (os & E1 & E2). unfold goes. cbn [convert]. rewrite E1. cbn [obind fst snd]. eexists; split; [reflexivity|].
      destruct (is_single_qubit_chain si (BKron bs) && merge); cbn [qden]; rewrite E2; cbn [omap obind]; unfold omap; cbn [obind]; rewrite fold_seq; reflexivity.
    - apply (convertible_comp si pn known num_hash is_time g KAdd bs) in H. assert (F : Forall (goes g) bs) by (rewrite Forall_forall in *; auto).
      destruct (convert_list g bs F) as (os & E1 & E2). unfold goes. cbn [convert]. rewrite E1. cbn [obind fst snd]. eexists; split; [reflexivity|].
      cbn [qden]; rewrite E2; cbn [omap obind]; unfold omap; cbn [obind]; rewrite fold_add; reflexivity.
    - eexists; split; reflexivity.
    - destruct H as (N & T & H). destruct (IH H) as (o & E1 & E2).
      assert (TD : time_dependent is_time gen = false).
      { unfold time_dependent. destruct (existsb is_time (bparams gen)) eqn:X; [|reflexivity]. apply existsb_exists in X as (s & X1 & X2). rewrite (T s X1) in X2. discriminate. }
      unfold goes. cbn [convert]. rewrite TD. cbv iota. rewrite E1. cbn [obind fst snd]. eexists; split; [reflexivity|].
      cbn [qden]. rewrite E2. cbn [obind]. rewrite angle_key. cbn [omap obind den]. unfold omap. cbn [obind].
      assert (S : sup si (BEvo gen t) = sup si gen) by reflexivity. rewrite S. f_equal. cbv zeta.
      apply gate_bexp_lift; [exact N|apply NoDup_nodup| |].
      + intros q Hq. apply in_uqubits in Hq. unfold sup. apply (in_bsup si Hs gen q). exact Hq.
      + eapply loc_mono; [|apply den_loc]. intros q Hq. apply in_uqubits. exact Hq.
  Qed.
End One.

Theorem C51_convert : forall set_iter parse_name num_hash is_time merge ap solve known rho gate_level b,
  set_order set_iter -> calls_ok ap -> convertible set_iter parse_name known num_hash is_time gate_level b ->
  exists op, convert set_iter parse_name num_hash is_time merge gate_level b = Some (op, gate_level) /\
    qden ap solve gate_level known rho op = Some (den rho b).
Proof. intros. apply convert_ok; assumption. Qed.

(** * The whole compilation *)
(** The scale factors of a block, when values are supplied per expression (the default differentiation mode).  Either all factors
    are numbers (complex ones allowed) and no gate has a parameter; or all are readable expressions and no gate has a parameter; or
    they are readable expressions and the numbers among them are not negative. *)
Definition readable (parse_name : string -> read_name) (known : string -> bool) (gate_level : bool) (b : block) : Prop :=
  gate_level = false ->
  ((forall e, In e (scales b) -> vars e = []) /\ (forall x, In x (gates b) -> bparams x = [])) \/
  ((forall e, In e (scales b) -> plain parse_name known e) /\ (forall x, In x (gates b) -> bparams x = [])) \/
  (forall e, In e (scales b) -> plain parse_name known e /\ (vars e = [] -> (0 <= fst (cval e))%R)).
(** hash of a non-negative float *)
Definition hash_sign (num_hash : C -> Z) : Prop := forall x, (0 <= x)%R -> (0 <= num_hash (RtoC x))%Z.

Lemma cpow_real x k : exists y, cpow (RtoC x) k = RtoC y.
Proof.
  induction k as [|k [y IH]]; [exists 1%R; reflexivity|]. exists (x * y)%R. cbn [cpow]. rewrite IH. apply Ceq; simpl; ring.
Qed.
Lemma plain_real pn known e : plain pn known e -> cval e = RtoC (fst (cval e)).
Proof.
  unfold cval. induction e as [[u v]|s|a IH|a IHa b IHb|a IHa b IHb|a IH k|a IH|f a IH]; cbn [plain ev]; intros H.
  - cbn in *. subst. reflexivity.
  - reflexivity.
  - rewrite (IH H). apply Ceq; simpl; ring.
  - destruct H as [H1 H2]. rewrite (IHa H1), (IHb H2). apply Ceq; simpl; ring.
  - destruct H as [H1 H2]. rewrite (IHa H1), (IHb H2). apply Ceq; simpl; ring.
  - rewrite (IH H). destruct (cpow_real (fst (ev (fun _ => 0%R) a)) k) as [y Hy]. rewrite Hy. reflexivity.
  - destruct H.
  - reflexivity.
Qed.

Section Whole.
  Variable si : list nat -> list nat.
  Hypothesis Hs : set_order si.
  Variable pn : string -> read_name.
  Variable num_hash : C -> Z.
  Hypothesis Hh : hash_sign num_hash.
  Variable is_time : string -> bool.
  Variable merge : bool.
  Variable ident : list block -> list nat.
  Hypothesis Hid : distinct_objects ident.
  Variable known : string -> bool.
  Local Notation convertible := (convertible si pn known num_hash is_time).

  Lemma simplify_ok b : krons_ok b -> exists y, simplify si merge ident b = Some y /\ (forall rho, den rho y = den rho b) /\ krons_ok y.
  Proof.
    intros K. unfold simplify. destruct merge.
    - destruct (C09_chain_single_qubit_ops si ident b Hs Hid K) as (y & E & D & _ & K'). eauto.
    - destruct (C06_flatten si [KChain; KKron; KAdd] b Hs K) as (y & E & D & _ & _ & K' & _). eauto.
  Qed.
  Lemma simplify_kept g b y : simplify si merge ident b = Some y -> convertible g b -> convertible g y.
  Proof.
    unfold simplify. destruct merge; intros E.
    - apply (chain_ops_kept si Hs pn known num_hash is_time g ident b y E).
    - apply (flatten_kept si Hs pn known num_hash is_time g _ b y E).
  Qed.

  Lemma scale_prims_convertible g b y : scale_prims si None b = Some y -> (forall x, In x (gates b) -> convertible g x) ->
    readable pn known g b -> convertible g y.
  Proof.
    intros E HG HR. apply convertible_sleaves. intros x Hx.
    assert (L : forall (P : expr -> Prop), (forall a b, P a -> P b -> P (EMul a b)) -> (forall e, In e (scales b) -> P e) ->
      scaled_leaf P b x).
    { intros P PM PA. eapply (scale_prims_leaves si Hs P PM b None); [exact E|apply Forall_forall; exact PA|exact I|exact Hx]. }
    destruct g.
    - destruct (L (fun _ => True)) as (gt & Hg & [-> | (e & -> & _)]); auto. split; [auto|discriminate].
    - destruct (HR eq_refl) as [[A B]|[[A B]|A]].
      + destruct (L (fun e => vars e = [])) as (gt & Hg & [-> | (e & -> & V)]); auto.
        { intros a c Va Vc. cbn [vars]. rewrite Va, Vc. reflexivity. }
        split; [auto|]. intros _. left. auto.
      + destruct (L (plain pn known)) as (gt & Hg & [-> | (e & -> & V)]); auto; [intros; split; assumption|].
        split; [auto|]. intros _. destruct (vars e) eqn:Ve; [left; auto|right; right]. split; [congruence|exact V].
      + destruct (L (fun e => plain pn known e /\ (vars e = [] -> (0 <= fst (cval e))%R))) as (gt & Hg & [-> | (e & -> & V & W)]); auto.
        { intros a c [Pa Na] [Pc Nc]. split; [split; assumption|]. cbn [vars]. intros V. apply app_eq_nil in V as [Va Vc].
          change (cval (EMul a c)) with (cval a * cval c). rewrite (plain_real _ _ _ Pa), (plain_real _ _ _ Pc). simpl.
          rewrite Rmult_0_l, Rminus_0_r. apply Rmult_le_pos; auto. }
        split; [auto|]. intros _. destruct (vars e) eqn:Ve; [right; left|right; right; split; [congruence|exact V]].
        split; [exact Ve|]. rewrite (plain_real _ _ _ V). apply Hh. auto.
  Qed.
End Whole.

(** Backend.circuit: the passes and the conversion succeed, and the program denotes the operator of the block. *)
Theorem C51_circuit : forall set_iter parse_name num_hash is_time merge ident ap solve known gate_level b,
  set_order set_iter -> hash_sign num_hash -> distinct_objects ident -> calls_ok ap ->
  krons_ok b -> no_empty_chain b -> (forall x, In x (gates b) -> convertible set_iter parse_name known num_hash is_time gate_level x) ->
  readable parse_name known gate_level b ->
  exists op, backend_circuit set_iter parse_name num_hash is_time merge ident gate_level b = Some (op, gate_level) /\
    forall rho, qden ap solve gate_level known rho op = Some (den rho b).
Proof.
  intros si pn nh it merge ident ap solve known g b Hs Hh Hid Hap K NE HG HR.
  destruct (scale_prims_ok si Hs b None K NE) as (y & Ey & K1 & _ & _ & D1 & _).
  destruct (simplify_ok si Hs merge ident Hid y K1) as (z & Ez & D2 & K2).
  assert (Cy := scale_prims_convertible si Hs pn nh Hh it known g b y Ey HG HR).
  assert (Cz := simplify_kept si Hs pn nh it merge ident known g y z Ez Cy).
  unfold backend_circuit, default_passes. rewrite Ey. cbn [obind]. rewrite Ez. cbn [obind]. rewrite (rebuild_id si Hs z K2). cbn [obind].
  destruct (C51_convert si pn nh it merge ap solve known (fun _ => 0%R) g z Hs Hap Cz) as (o & E & _). exists o. split; [exact E|].
  intros rho. destruct (C51_convert si pn nh it merge ap solve known rho g z Hs Hap Cz) as (o' & E' & Q). rewrite E' in E. injection E as ->.
  rewrite Q, D2, D1. reflexivity.
Qed.

(** Backend.observable *)
Theorem C51_observable : forall set_iter parse_name num_hash is_time merge ident ap solve known gate_level b,
  set_order set_iter -> hash_sign num_hash -> distinct_objects ident -> calls_ok ap ->
  krons_ok b -> no_empty_chain b -> (forall x, In x (gates b) -> convertible set_iter parse_name known num_hash is_time gate_level x) ->
  readable parse_name known gate_level b ->
  exists op, backend_observable set_iter parse_name num_hash is_time merge ident gate_level b = Some (op, gate_level) /\
    forall rho, qden ap solve gate_level known rho op = Some (den rho b).
Proof.
  intros si pn nh it merge ident ap solve known g b Hs Hh Hid Hap K NE HG HR.
  destruct (scale_prims_ok si Hs b None K NE) as (y & Ey & K1 & _ & _ & D1 & _).
  destruct (simplify_ok si Hs merge ident Hid y K1) as (z & Ez & D2 & K2).
  assert (Cy := scale_prims_convertible si Hs pn nh Hh it known g b y Ey HG HR).
  assert (Cz := simplify_kept si Hs pn nh it merge ident known g y z Ez Cy).
  unfold backend_observable. rewrite Ey. cbn [obind]. rewrite Ez. cbn [obind].
  destruct (C51_convert si pn nh it merge ap solve known (fun _ => 0%R) g z Hs Hap Cz) as (o & E & _). exists o. split; [exact E|].
  intros rho. destruct (C51_convert si pn nh it merge ap solve known rho g z Hs Hap Cz) as (o' & E' & Q). rewrite E' in E. injection E as ->.
  rewrite Q, D2, D1. reflexivity.
Qed.

(** * Findings *)
(** N(q, "0") is simulated as |1><1|. *)
Theorem C51_n_state_refuted : forall set_iter parse_name num_hash is_time merge ap solve known rho gate_level q,
  exists op, convert set_iter parse_name num_hash is_time merge gate_level (BPrim (PN false) q) = Some (op, gate_level) /\
    qden ap solve gate_level known rho op <> Some (den rho (BPrim (PN false) q)).
Proof.
  intros. eexists; split; [reflexivity|]. cbn [qden den]. intros E. injection E as E.
  pose proof (f_equal (fun A : Op => A (fun x : nat -> bool => RtoC 1) zeros) E) as F. cbv beta in F. rewrite !gate1_eq in F.
  unfold zeros in F. cbn [prim_mat mat2] in F. apply (f_equal fst) in F. simpl in F. lra.
Qed.

(** A TDagger cannot be simulated. *)
Theorem C51_tdagger_refuted : forall set_iter parse_name num_hash is_time merge gate_level q,
  convert set_iter parse_name num_hash is_time merge gate_level (BPrim PTdg q) = None.
Proof. reflexivity. Qed.

(** A product of a parameter and an imaginary number: the imaginary unit is looked up as a value named "I". *)
Theorem C51_imaginary_refuted : forall set_iter parse_name num_hash is_time merge ap solve known rho s q,
  parse_name s = RSymbol -> known "I" = false ->
  let b := BScale (BPrim PX q) (EMul (ECst Ci) (EVar s)) in
  exists op, convert set_iter parse_name num_hash is_time merge false b = Some (op, false) /\ qden ap solve false known rho op = None.
Proof.
  intros si pn nh it merge ap solve known rho s q Hp Hk. cbn [convert].
  change (convert si pn nh it merge false (BPrim PX q)) with (Some (QPrim PX q, false)). cbn [obind fst snd].
  unfold scale_param. cbn [is_parametric bparams vars app]. unfold is_parametric. cbn [bparams vars app parse obind].
  cbn [omap obind]. rewrite Hp. destruct (Req_EM_T (snd Ci) 0) as [E|E]; [exfalso; revert E; unfold Ci; simpl; lra|].
  cbn. eexists; split; [reflexivity|]. cbn. unfold entry. rewrite Hk. reflexivity.
Qed.

(** A parameter with a name sympy reads as a number (such as "E" or "pi") is replaced by that number. *)
Theorem C51_reserved_name_refuted : forall set_iter parse_name num_hash is_time merge ap solve known s x q,
  parse_name s = RNumber x ->
  let b := BScale (BPrim PX q) (EVar s) in
  exists op, convert set_iter parse_name num_hash is_time merge false b = Some (op, false) /\
    forall rho, qden ap solve false known rho op = Some (scaleop (RtoC x) (den rho (BPrim PX q))).
Proof.
  intros si pn nh it merge ap solve known s x q Hp. cbn [convert].
  change (convert si pn nh it merge false (BPrim PX q)) with (Some (QPrim PX q, false)). cbn [obind fst snd].
  unfold scale_param, is_parametric. cbn [bparams vars app parse obind]. rewrite Hp. cbn. eexists; split; [reflexivity|]. intros rho. reflexivity.
Qed.

(** A negative number in front of a gate with a parameter: the value's key "fix_-n" is read as a difference. *)
Theorem C51_negative_scale_refuted : forall set_iter parse_name num_hash is_time merge ap solve known rho r q s c,
  (num_hash c < 0)%Z -> known "fix_" = false ->
  let b := BScale (BRot r q (EVar s)) (ECst c) in
  exists op, convert set_iter parse_name num_hash is_time merge false b = Some (op, false) /\ qden ap solve false known rho op = None.
Proof.
  intros si pn nh it merge ap solve known rho r q s c Hc Hk. cbn [convert]. unfold rot_param, is_parametric. cbn [bparams vars obind fst snd].
  unfold scale_param, is_parametric. cbn [bparams vars app]. change (cval (ECst c)) with c. destruct (Z.ltb_spec (nh c) 0); [|lia].
  cbn. eexists; split; [reflexivity|]. cbn. unfold entry. rewrite Hk. reflexivity.
Qed.

(** A time-dependent generator switches the whole conversion to expression-level values: with gate-level values a rotation before
    it is read by uuid, one after it by expression, and no dictionary of either kind serves both. *)
Theorem C51_time_dependent_refuted : forall set_iter parse_name num_hash is_time merge ap solve known rho t u,
  is_time t = true ->
  let b := BChain [BRot RX_ 0 (EVar u); BEvo (BScale (BPrim PZ 0) (EVar t)) (EVar "d"); BRot RX_ 0 (EVar u)] in
  forall op g', convert set_iter parse_name num_hash is_time merge true b = Some (op, g') ->
    qden ap solve true known rho op = None /\ qden ap solve false known rho op = None.
Proof.
  intros si pn nh it merge ap solve known rho t u Ht b op g'. unfold b. cbn [convert].
  unfold time_dependent. cbn [bparams vars app existsb]. rewrite Ht. cbn [orb].
  change (convert si pn nh it merge false (BPrim PZ 0)) with (Some (QPrim PZ 0, false)). cbn [obind fst snd].
  destruct (scale_param pn nh false (BScale (BPrim PZ 0) (EVar t)) (EVar t)) as [v|]; cbn [obind]; [|discriminate].
  match goal with |- context [if ?c then _ else _] => destruct c end; intros E; injection E as <- <-;
    (split; cbn [qden map osequence obind omap]; unfold rot_param, is_parametric, angle, omap; cbn [bparams vars pv_eval Bool.eqb obind]; [|reflexivity]).
  - destruct (pv_eval ap true known rho v); reflexivity.
  - destruct (pv_eval ap true known rho v); reflexivity.
Qed.

(** * Witnesses *)
Example C51_time_dependent_refuted_witness :
  let b := BChain [BRot RX_ 0 (EVar "u"); BEvo (BScale (BPrim PZ 0) (EVar "t")) (EVar "d"); BRot RX_ 0 (EVar "u")] in
  exists op, convert sorted_set (fun _ => RSymbol) (fun _ => 0%Z) (String.eqb "t") true true b = Some (op, false).
Proof. eexists. reflexivity. Qed.
Definition add_mul (f : string) (args : list C) : option C :=
  match args with
  | [x; y] => if String.eqb f "add" then Some (x + y) else if String.eqb f "mul" then Some (x * y) else None
  | _ => None
  end.
Definition all_symbols (s : string) : read_name := RSymbol.
Definition no_hash (c : C) : Z := 0%Z.
Definition no_time (s : string) : bool := false.

(** calls_ok has an instance *)
Definition pow_of (x y : C) : option C :=
  Some (cpow x (Z.to_nat (up (fst y) - 1))).
Definition ap_example (f : string) (args : list C) : option C :=
  match args with
  | [x; y] => if String.eqb f "add" then Some (x + y) else if String.eqb f "mul" then Some (x * y)
              else if String.eqb f "pow" then pow_of x y else None
  | [x] => if String.eqb f "cos" then Some (RtoC (cos (fst x))) else if String.eqb f "sin" then Some (RtoC (sin (fst x))) else None
  | _ => None
  end.
Lemma up_INR k : (up (INR k) - 1)%Z = Z.of_nat k.
Proof.
  destruct (archimed (INR k)) as [A B]. rewrite INR_IZR_INZ in A, B. rewrite INR_IZR_INZ.
  assert (Z.of_nat k < up (IZR (Z.of_nat k)))%Z by (apply lt_IZR; lra).
  assert (up (IZR (Z.of_nat k)) <= Z.of_nat k + 1)%Z by (apply le_IZR; rewrite plus_IZR; lra). lia.
Qed.
Example C51_calls_ok_witness : calls_ok ap_example.
Proof.
  split; [reflexivity|]. split; [reflexivity|]. split; [|split; reflexivity]. intros x k. unfold ap_example. cbn [String.eqb Ascii.eqb Bool.eqb].
  unfold pow_of. cbn [fst RtoC]. rewrite up_INR, Nat2Z.id. reflexivity.
Qed.

(** sin(x) + 2 x y + 3 with the sum of three terms and the product of three factors. *)
Example C51_scale_expression_witness :
  let look s := if String.eqb s "x" then Some (RtoC 2) else if String.eqb s "y" then Some (RtoC 5) else None in
  let e := SFun "Add" [SNum 3; SFun "Mul" [SNum 2; SSym "x"; SSym "y"]; SSym "x"] in
  same_functions (fun _ _ => None) add_mul /\ sval (fun _ _ => None) look e = Some (RtoC 25) /\
  sympy_to_pyq e = Some (PCall "add" [PCall "add" [PCst 3; PCall "mul" [PCall "mul" [PCst 2; PKey "x"]; PKey "y"]]; PKey "x"]).
Proof.
  split.
  - split; [reflexivity|]. split; [reflexivity|]. intros f name args H. unfold add_mul.
    repeat (destruct H as [E | H]; [injection E as <- <-; destruct args as [|? [|? [|? ?]]]; reflexivity|]). destruct H.
  - split; [|reflexivity]. cbn. f_equal. apply Ceq; simpl; ring.
Qed.

(** A chain of two layers with a parametric rotation and an evolution, and a scaled sum. *)
Definition circuit_example : block :=
  BChain [BKron [BRot RX_ 0 (EVar "a"); BPrim PH 1]; BKron [BPrim PX 0; BPrim PZ 1]; BCtrl [0%nat] (BPrim PX 1);
          BEvo (BAdd [BScale (BPrim PZ 0) (EVar "w"); BPrim PX 1]) (EVar "t")].
Example C51_circuit_witness :
  krons_ok circuit_example /\ no_empty_chain circuit_example /\
  (forall x, In x (gates circuit_example) -> convertible sorted_set all_symbols (fun _ => true) no_hash no_time false x) /\
  readable all_symbols (fun _ => true) false circuit_example /\ hash_sign no_hash.
Proof.
  split; [simpl; repeat split; try discriminate; repeat constructor; simpl; intuition lia|].
  split; [simpl; repeat split; discriminate|].
  split.
  - intros x Hx. cbn [circuit_example gates flat_map app] in Hx.
    repeat (destruct Hx as [<- | Hx]; [|]); try (destruct Hx); cbn [convertible fold_right]; try exact I; try (split; discriminate).
    + exists 1%nat. left; reflexivity.
    + split; [vm_compute; repeat constructor; simpl; intuition lia|]. split; [reflexivity|]. split; [|split; [split; discriminate|exact I]].
      split; [split; discriminate|]. intros _. right. right. split; [discriminate|]. split; reflexivity.
  - split; [|intros x Hx; unfold no_hash; lia]. intros _. right. right. intros e []. 
Qed.
Example C51_observable_witness :
  let b := BScale (BAdd [BScale (BKron [BPrim PZ 0; BPrim PZ 1]) (EVar "w"); BPrim PX 0]) (ECst (RtoC 2)) in
  krons_ok b /\ no_empty_chain b /\
  (forall x, In x (gates b) -> convertible sorted_set all_symbols (fun _ => true) no_hash no_time false x) /\
  readable all_symbols (fun _ => true) false b.
Proof.
  split; [simpl; repeat split; try discriminate; repeat constructor; simpl; intuition lia|].
  split; [simpl; repeat split; discriminate|]. split.
  - intros x Hx. cbn [gates flat_map app] in Hx.
    repeat (destruct Hx as [<- | Hx]; [cbn [convertible]; split; discriminate|]). destruct Hx.
  - intros _. right. right. intros e Hx. cbn in Hx. destruct Hx as [<- | [<- | []]]; cbn.
    + split; [reflexivity|]. intros _. lra.
    + split; [split; reflexivity|discriminate].
Qed.
(** A complex number in front of gates without parameters is allowed. *)
Example C51_complex_scale_witness : readable all_symbols (fun _ => true) false (BScale (BPrim PX 0) (ECst Ci)).
Proof. intros _. left. split; [intros e [<- | []]; reflexivity|intros x [<- | []]; reflexivity]. Qed.

Print Assumptions C51_scale_expression.
Print Assumptions C51_convert.
Print Assumptions C51_circuit.
Print Assumptions C51_observable.
Print Assumptions C51_n_state_refuted.
Print Assumptions C51_tdagger_refuted.
Print Assumptions C51_imaginary_refuted.
Print Assumptions C51_reserved_name_refuted.
Print Assumptions C51_negative_scale_refuted.
Print Assumptions C51_time_dependent_refuted.
