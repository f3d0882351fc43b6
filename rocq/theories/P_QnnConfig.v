(** C63: a QNN built from configurations has the requested uploads, layers and parameters. *)
From Coq Require Import String Ascii Reals List Arith Bool ZArith Lia.
From Coquelicot Require Import Coquelicot.
From Coq Require Import List.
From Verif Require Import S_Ops S_Sets M_QubitSupport M_Block M_BlockOps M_Tensor M_Transpile M_Names M_Embedding M_Features M_FeatureMap M_Hamiltonians M_Hea M_Iia M_Ala M_QnnConfig.
From Verif Require Import P_ChainOps L_Loc L_Names L_Ops L_Support L_Transpile P_Embedding P_Features P_FeatureMap P_Hea P_Ala P_Iia.
From Verif Require P_Overlap.
Import ListNotations.
Open Scope string_scope.
Open Scope list_scope.
Open Scope nat_scope.

(** * Specification *)
(** The value that a property has for a feature, as the user wrote it. *)
Definition given {A} (s : setting A) (f : string) (a : A) : Prop := match s with Same b => a = b | PerFeature d => In (f, a) d end.
(** A dictionary has each key once. *)
Definition one_each {A} (s : setting A) : Prop := match s with Same _ => True | PerFeature d => NoDup (map fst d) end.
Definition dictionaries (g : fm_args) : Prop :=
  one_each (g_basis_set g) /\ one_each (g_reupload_scaling g) /\ one_each (g_feature_range g) /\ one_each (g_target_range g) /\ one_each (g_num_repeats g).
(** Its keys are the inputs. *)
Definition covers {A} (s : setting A) (inputs : list string) : Prop := match s with Same _ => True | PerFeature d => forall f, In f (map fst d) <-> In f inputs end.
(** The names of the inputs: those given, or "x" for a single feature. *)
Definition input_names (g : fm_args) (inputs : list string) : Prop :=
  (g_inputs g = Some inputs \/ g_inputs g = None /\ (g_num_features g = 0 /\ inputs = [] \/ g_num_features g = 1 /\ inputs = ["x"])) /\ length inputs = g_num_features g.

(** The features in the order of their uploads: in round i = 0, 1, ... the inputs that are to be repeated i times or more. *)
Definition in_round (repeats : string -> Z) (inputs : list string) (i : nat) : list string := filter (fun f => (Z.of_nat i <=? repeats f)%Z) inputs.
Definition uploads (repeats : string -> Z) (inputs : list string) (bound : nat) : list string := flat_map (in_round repeats inputs) (seq 0 bound).
Definition most (repeats : string -> Z) (inputs : list string) (m : Z) : Prop := (forall f, In f inputs -> (repeats f <= m)%Z) /\ exists f, In f inputs /\ repeats f = m.

(** The block feature_map(n, support, param=f, op=r, ...) with the settings of feature [f]; the trainable weights are named prefix_f_i. *)
Definition encodes (g : fm_args) (r : rot) (rho : env) (n : nat) (support : list nat) (f : string) (b : block) : Prop :=
  exists basis scaling frange trange gates,
    given (g_basis_set g) f basis /\ given (g_reupload_scaling g) f scaling /\ given (g_feature_range g) f frange /\ given (g_target_range g) f trange /\
    feature_map n (Some support) basis scaling frange trange None
      (match g_prefix g with None => None | Some p => Some (fun i => rho (p ++ "_" ++ f ++ "_" ++ dec i)%string) end) (rho f) = Some gates /\
    b = BKron (map (fun qa => BRot r (fst qa) (ECst (RtoC (snd qa)))) gates).

(** The parameter names in a block. *)
Fixpoint evars (e : expr) : list string :=
  match e with ECst _ => [] | EVar s => [s] | ENeg a | EPow a _ | EConj a | EFun _ a => evars a | EAdd a b | EMul a b => evars a ++ evars b end.
Fixpoint bvars (b : block) : list string :=
  match b with
  | BPrim _ _ | BProj _ _ _ | BSwap _ _ | BCSwap _ _ _ | BMat _ _ => []
  | BRot _ _ e => evars e
  | BU _ x y z => evars x ++ evars y ++ evars z
  | BCtrl _ b | BPCtrl _ b => bvars b
  | BScale b e => bvars b ++ evars e
  | BChain bs | BKron bs | BAdd bs => flat_map bvars bs
  | BEvo g t => bvars g ++ evars t
  end.

(** b0, l0, b1, l1, ..., bk *)
Fixpoint alternate {A} (bs ls : list A) : list A :=
  match bs, ls with b :: bs', l :: ls' => b :: l :: alternate bs' ls' | _, _ => bs end.

(** * The configuration *)
Lemma same_keys_spec a b : same_keys a b = true <-> forall f, In f a <-> In f b.
Proof.
  unfold same_keys. rewrite andb_true_iff, !forallb_forall.
  assert (E : forall x l, existsb (String.eqb x) l = true <-> In x l).
  { intros x l. rewrite existsb_exists. split; [intros (y & I & Q); apply String.eqb_eq in Q; subst; exact I|intros I; exists x; split; [exact I|apply String.eqb_refl]]. }
  split.
  - intros [H1 H2] f. split; intros I; apply E; [apply H1|apply H2]; exact I.
  - intros H. split; intros x I; apply E, H, I.
Qed.
Lemma settle_spec {A} inputs (s : setting A) d : settle inputs s = Some d -> one_each s ->
  covers s inputs /\ (forall f, In f (map fst d) <-> In f inputs) /\ forall f a, In f inputs -> (get d f = Some a <-> given s f a).
Proof.
  destruct s as [v|e]; simpl; intros H N.
  - injection H as <-. split; [exact I|]. rewrite map_map. cbn [fst]. rewrite map_id. split; [tauto|]. intros f a Hf.
    assert (G : get (map (fun k => (k, v)) inputs) f = Some v).
    { clear N. induction inputs as [|k l IH]; [destruct Hf|]. simpl. destruct (String.eqb_spec k f) as [E|E]; [reflexivity|]. apply IH. destruct Hf; [tauto|assumption]. }
    rewrite G. split; [intros Q; injection Q; auto|intros ->; reflexivity].
  - destruct (same_keys (map fst e) inputs) eqn:K; [|discriminate]. injection H as <-. pose proof (proj1 (same_keys_spec _ _) K) as K'. clear K. rename K' into K. split; [exact K|]. split; [exact K|].
    intros f a _. split; [apply get_In|apply In_get, N].
Qed.
Lemma settle_defined {A} inputs (s : setting A) : (exists d, settle inputs s = Some d) <-> covers s inputs.
Proof.
  destruct s as [v|e]; simpl; [split; [auto|intros _; eexists; reflexivity]|]. rewrite <- same_keys_spec.
  destruct (same_keys (map fst e) inputs); split; intros H; try reflexivity; try discriminate; [eexists; reflexivity|destruct H; discriminate].
Qed.
Lemma settle_inputs_spec g inputs : settle_inputs (g_num_features g) (g_inputs g) = Some inputs <-> input_names g inputs.
Proof.
  unfold settle_inputs, input_names. destruct (g_inputs g) as [l|].
  - destruct (Nat.eqb_spec (length l) (g_num_features g)) as [E|E]; split.
    + intros H. injection H as <-. auto.
    + intros [[H|[H _]] _]; [congruence|discriminate].
    + discriminate.
    + intros [[H|[H _]] L]; [injection H as <-; tauto|discriminate].
  - destruct (g_num_features g) as [|[|k]]; split; intros H.
    + injection H as <-. split; [right; split; [reflexivity|left; auto]|reflexivity].
    + destruct H as [[H|[_ [[_ ->]|[H _]]]] _]; [discriminate|reflexivity|discriminate].
    + injection H as <-. split; [right; split; [reflexivity|right; auto]|reflexivity].
    + destruct H as [[H|[_ [[H _]|[_ ->]]]] _]; [discriminate|discriminate|reflexivity].
    + discriminate.
    + destruct H as [[H|[_ [[H _]|[H _]]]] _]; discriminate.
Qed.

(** Every property given once holds for all features; one given as a dictionary must name exactly the inputs, and each feature has its own value. *)
Theorem C63_config : forall arx g c, dictionaries g -> fm_post_init arx g = Some c ->
  input_names g (c_inputs c) /\ c_num_features c = g_num_features g /\ c_multivariate c = g_multivariate g /\ c_prefix c = g_prefix g /\
  (g_multivariate g = Parallel -> g_num_features g <= 1 \/ g_strategy g = DIGITAL) /\
  forall f, In f (c_inputs c) ->
    (forall a, get (c_basis_set c) f = Some a <-> given (g_basis_set g) f a) /\ (forall a, get (c_reupload_scaling c) f = Some a <-> given (g_reupload_scaling g) f a) /\
    (forall a, get (c_feature_range c) f = Some a <-> given (g_feature_range g) f a) /\ (forall a, get (c_target_range c) f = Some a <-> given (g_target_range g) f a) /\
    (forall a, get (c_num_repeats c) f = Some a <-> given (g_num_repeats g) f a).
Proof.
  intros arx g c (D1 & D2 & D3 & D4 & D5) H. unfold fm_post_init in H.
  destruct (match g_multivariate g, g_strategy g with Parallel, DIGITAL => true | Parallel, _ => Nat.leb (g_num_features g) 1 | _, _ => true end) eqn:P; [|discriminate].
  destruct (settle_strategy arx (g_strategy g) (g_operation g)) as [s op].
  destruct (settle_inputs (g_num_features g) (g_inputs g)) as [inputs|] eqn:EI; [|discriminate]. cbn [obind] in H.
  destruct (settle inputs (g_basis_set g)) as [d1|] eqn:E1; [|discriminate]. destruct (settle inputs (g_reupload_scaling g)) as [d2|] eqn:E2; [|discriminate].
  destruct (settle inputs (g_feature_range g)) as [d3|] eqn:E3; [|discriminate]. destruct (settle inputs (g_target_range g)) as [d4|] eqn:E4; [|discriminate].
  destruct (settle inputs (g_num_repeats g)) as [d5|] eqn:E5; [|discriminate]. cbn [obind] in H. injection H as <-. cbn.
  split; [apply settle_inputs_spec, EI|]. split; [reflexivity|]. split; [reflexivity|]. split; [reflexivity|]. split.
  - intros M. rewrite M in P. destruct (g_strategy g); try (left; apply Nat.leb_le, P). right. reflexivity.
  - intros f Hf. repeat split; try (eapply (settle_spec _ _ _ E1 D1); exact Hf); try (eapply (settle_spec _ _ _ E2 D2); exact Hf); try (eapply (settle_spec _ _ _ E3 D3); exact Hf);
      try (eapply (settle_spec _ _ _ E4 D4); exact Hf); eapply (settle_spec _ _ _ E5 D5); exact Hf.
Qed.
(** Exactly these configurations are accepted. *)
Theorem C63_config_defined : forall arx g, dictionaries g ->
  ((exists c, fm_post_init arx g = Some c) <->
   (g_multivariate g = Parallel -> g_num_features g <= 1 \/ g_strategy g = DIGITAL) /\
   exists inputs, input_names g inputs /\ covers (g_basis_set g) inputs /\ covers (g_reupload_scaling g) inputs /\ covers (g_feature_range g) inputs /\
     covers (g_target_range g) inputs /\ covers (g_num_repeats g) inputs).
Proof.
  intros arx g D. split.
  - intros [c H]. destruct (C63_config arx g c D H) as (I1 & _ & _ & _ & P & _). split; [exact P|]. exists (c_inputs c). split; [exact I1|].
    destruct D as (D1 & D2 & D3 & D4 & D5). unfold fm_post_init in H. destruct (match g_multivariate g, g_strategy g with Parallel, DIGITAL => true | Parallel, _ => Nat.leb (g_num_features g) 1 | _, _ => true end); [|discriminate].
    destruct (settle_strategy arx (g_strategy g) (g_operation g)) as [s op].
    destruct (settle_inputs (g_num_features g) (g_inputs g)) as [inputs|] eqn:EI; [|discriminate]. cbn [obind] in H.
    destruct (settle inputs (g_basis_set g)) as [d1|] eqn:E1; [|discriminate]. destruct (settle inputs (g_reupload_scaling g)) as [d2|] eqn:E2; [|discriminate].
    destruct (settle inputs (g_feature_range g)) as [d3|] eqn:E3; [|discriminate]. destruct (settle inputs (g_target_range g)) as [d4|] eqn:E4; [|discriminate].
    destruct (settle inputs (g_num_repeats g)) as [d5|] eqn:E5; [|discriminate]. cbn [obind] in H. injection H as <-. cbn.
    repeat split; apply settle_defined; eexists; eassumption.
  - intros (P & inputs & I1 & V1 & V2 & V3 & V4 & V5). unfold fm_post_init.
    replace (match g_multivariate g, g_strategy g with Parallel, DIGITAL => true | Parallel, _ => Nat.leb (g_num_features g) 1 | _, _ => true end) with true.
    2: { destruct (g_multivariate g); try reflexivity. destruct (P eq_refl) as [L|E]; [|rewrite E; reflexivity]. apply Nat.leb_le in L. rewrite L. destruct (g_strategy g); reflexivity. }
    destruct (settle_strategy arx (g_strategy g) (g_operation g)) as [s op]. apply settle_inputs_spec in I1. rewrite I1. cbn [obind].
    apply settle_defined in V1 as [d1 ->], V2 as [d2 ->], V3 as [d3 ->], V4 as [d4 ->], V5 as [d5 ->]. eexists. reflexivity.
Qed.

(** * The rounds of uploads *)
Lemma F2_length {A B} (P : A -> B -> Prop) l l' : Forall2 P l l' -> length l = length l'.
Proof. induction 1; simpl; congruence. Qed.
Lemma one_round_spec : forall inputs u (U : string -> Z), NoDup inputs -> (forall f, In f inputs -> get u f = Some (U f)) ->
  exists u', one_round inputs u = Some (filter (fun f => (0 <? U f)%Z) inputs, u') /\ (forall f, In f inputs -> get u' f = Some (U f - 1)%Z) /\ (forall f, ~ In f inputs -> get u' f = get u f).
Proof.
  induction inputs as [|f r IH]; intros u U N G; [exists u; split; [reflexivity|split; [intros f []|reflexivity]]|].
  inversion N as [|? ? N1 N2]; subst. cbn [one_round]. rewrite (G f (or_introl eq_refl)). cbn [obind].
  destruct (IH (set u f (U f - 1)%Z) U N2) as (u' & E & G1 & G2).
  { intros h Hh. rewrite get_set. destruct (String.eqb_spec f h) as [Q|Q]; [subst; tauto|]. apply G. right. exact Hh. }
  rewrite E. cbn [obind fst snd]. exists u'. split; [cbn [filter]; destruct (0 <? U f)%Z; reflexivity|]. split.
  - intros h [<-|Hh]; [|apply G1, Hh]. rewrite (G2 f N1), get_set, String.eqb_refl. reflexivity.
  - intros h Hh. simpl in Hh. rewrite G2 by tauto. rewrite get_set. destruct (String.eqb_spec f h); [tauto|reflexivity].
Qed.
Lemma filter_ext_in' {A} (p q : A -> bool) l : (forall a, In a l -> p a = q a) -> filter p l = filter q l.
Proof. apply filter_ext_in. Qed.
Lemma rounds_of_spec : forall n inputs u U, NoDup inputs -> (forall f, In f inputs -> get u f = Some (U f)) ->
  rounds_of n inputs u = Some (map (fun i => filter (fun f => (Z.of_nat i <? U f)%Z) inputs) (seq 0 n)).
Proof.
  induction n as [|n IH]; intros inputs u U N G; [reflexivity|]. cbn [rounds_of].
  destruct (one_round_spec inputs u U N G) as (u' & E & G1 & _). rewrite E. cbn [obind fst snd]. rewrite (IH inputs u' (fun f => U f - 1)%Z N G1). cbn [obind seq map].
  f_equal. f_equal. rewrite <- seq_shift, map_map. apply map_ext. intros i. apply filter_ext. intros f.
  destruct (Z.ltb_spec (Z.of_nat i) (U f - 1)), (Z.ltb_spec (Z.of_nat (S i)) (U f)); try reflexivity; lia.
Qed.
Lemma max_value_spec : forall d m, max_value d = Some m -> (forall k v, In (k, v) d -> (v <= m)%Z) /\ exists k, In (k, m) d.
Proof.
  intros [|[k0 v0] r] m H; [discriminate|]. injection H as <-.
  assert (K : forall r a, (a <= fold_left (fun m e => Z.max m (snd e)) r a)%Z /\ (forall (k : string) v, In (k, v) r -> (v <= fold_left (fun m e => Z.max m (snd e)) r a)%Z) /\
    (fold_left (fun m e => Z.max m (snd e)) r a = a \/ exists k : string, In (k, fold_left (fun m e => Z.max m (snd e)) r a) r)).
  { induction r0 as [|[k v] r0 IH]; intros a; [cbn; split; [lia|split; [intros ? ? []|left; reflexivity]]|]. cbn [fold_left snd]. destruct (IH (Z.max a v)) as (H1 & H2 & H3).
    split; [lia|]. split.
    - intros k' v' [Q|Q]; [injection Q as <- <-; lia|apply (H2 _ _ Q)].
    - destruct H3 as [H3|[k' H3]]; [|right; exists k'; right; exact H3]. rewrite H3. destruct (Z.max_spec a v) as [[_ ->]|[_ ->]]; [right; exists k; left; reflexivity|left; reflexivity]. }
  destruct (K r v0) as (H1 & H2 & H3). split.
  - intros k v [Q|Q]; [injection Q as <- <-; exact H1|apply (H2 _ _ Q)].
  - destruct H3 as [H3|[k H3]]; [exists k0; left; rewrite H3; reflexivity|exists k; right; exact H3].
Qed.
Lemma most_unique repeats inputs m m' : most repeats inputs m -> most repeats inputs m' -> m = m'.
Proof. intros (A & f & F1 & F2) (B & h & H1 & H2). pose proof (A h H1). pose proof (B f F1). lia. Qed.
Lemma rounds_spec c repeats : NoDup (c_inputs c) -> c_inputs c <> [] -> NoDup (map fst (c_num_repeats c)) -> (forall f, In f (map fst (c_num_repeats c)) <-> In f (c_inputs c)) ->
  (forall f, In f (c_inputs c) -> get (c_num_repeats c) f = Some (repeats f)) ->
  exists m, most repeats (c_inputs c) m /\ rounds c = Some (map (in_round repeats (c_inputs c)) (seq 0 (Z.to_nat (m + 1)))).
Proof.
  intros N NE ND K G. unfold rounds. set (u := map (fun kv => (fst kv, (snd kv + 1)%Z)) (c_num_repeats c)).
  assert (GU : forall f, In f (c_inputs c) -> get u f = Some (repeats f + 1)%Z).
  { intros f Hf. unfold u. rewrite (get_map_val (fun v => (v + 1)%Z)), (G f Hf). reflexivity. }
  destruct (max_value u) as [m|] eqn:M.
  2: { exfalso. destruct (c_inputs c) as [|f r] eqn:EI; [tauto|]. specialize (GU f (or_introl eq_refl)). destruct u as [|[k v] u']; [discriminate GU|discriminate M]. }
  cbn [obind]. rewrite (rounds_of_spec (Z.to_nat m) (c_inputs c) u (fun f => repeats f + 1)%Z N GU). exists (m - 1)%Z. split.
  - apply max_value_spec in M as (M1 & k & M2). split.
    + intros f Hf. pose proof (M1 f (repeats f + 1)%Z (get_In _ _ _ (GU f Hf))). lia.
    + exists k. assert (Hk : In k (c_inputs c)). { apply K. unfold u in M2. apply in_map_iff in M2 as ([a v] & E & I1). injection E as <- _. apply (in_map fst) in I1. exact I1. }
      split; [exact Hk|]. unfold u in M2. apply in_map_iff in M2 as ([a v] & E & I1). cbn [fst snd] in E. injection E as E1 E2. subst a. apply (In_get _ _ _ ND) in I1. rewrite (G k Hk) in I1. injection I1 as I1. lia.
  - replace (m - 1 + 1)%Z with m by lia. f_equal. apply map_ext. intros i. unfold in_round. apply filter_ext. intros f.
    destruct (Z.ltb_spec (Z.of_nat i) (repeats f + 1)), (Z.leb_spec (Z.of_nat i) (repeats f)); try reflexivity; lia.
Qed.
Lemma uploads_bound repeats inputs m bound : most repeats inputs m -> (forall f, In f inputs -> (repeats f < Z.of_nat bound)%Z) ->
  concat (map (in_round repeats inputs) (seq 0 (Z.to_nat (m + 1)))) = uploads repeats inputs bound.
Proof.
  intros (M1 & h & M2 & M3) B. rewrite <- flat_map_concat_map. unfold uploads.
  assert (L : Z.to_nat (m + 1) <= bound) by (specialize (B h M2); lia). replace bound with (Z.to_nat (m + 1) + (bound - Z.to_nat (m + 1))) by lia.
  rewrite seq_app, flat_map_app. replace (flat_map _ (seq (0 + _) _)) with (@nil string); [symmetry; apply app_nil_r|]. symmetry.
  assert (Z0 : forall i, In i (seq (0 + Z.to_nat (m + 1)) (bound - Z.to_nat (m + 1))) -> in_round repeats inputs i = []).
  { intros i Hi. apply in_seq in Hi. unfold in_round. induction inputs as [|f r IH]; [reflexivity|]. clear IH.
    assert (Q : forall f', In f' (f :: r) -> (Z.of_nat i <=? repeats f')%Z = false) by (intros f' Hf'; apply Z.leb_gt; specialize (M1 f' Hf'); lia).
    clear - Q. induction (f :: r) as [|x l IH]; [reflexivity|]. cbn [filter]. rewrite (Q x (or_introl eq_refl)). apply IH. intros f' Hf'. apply Q. right. exact Hf'. }
  induction (seq _ _) as [|i l IH]; [reflexivity|]. cbn [flat_map]. rewrite (Z0 i (or_introl eq_refl)). apply IH. intros j Hj. apply Z0. right. exact Hj.
Qed.

(** Each feature is uploaded once more than it is to be repeated (and never if that number is negative). *)
Theorem C63_upload_count : forall repeats inputs bound f, NoDup inputs -> In f inputs -> (repeats f < Z.of_nat bound)%Z ->
  count_occ string_dec (uploads repeats inputs bound) f = Z.to_nat (repeats f + 1).
Proof.
  intros repeats inputs bound f N I B. unfold uploads.
  assert (O : forall i, count_occ string_dec (in_round repeats inputs i) f = if (Z.of_nat i <=? repeats f)%Z then 1 else 0).
  { intros i. unfold in_round. clear B. induction inputs as [|a l IH]; [destruct I|]. inversion N as [|? ? N1 N2]; subst. cbn [filter]. destruct I as [->|I].
    - assert (Z0 : count_occ string_dec (filter (fun g => (Z.of_nat i <=? repeats g)%Z) l) f = 0) by (apply count_occ_not_In; intros Q; apply filter_In in Q; tauto).
      destruct (Z.of_nat i <=? repeats f)%Z; [cbn [count_occ]; destruct (string_dec f f); [rewrite Z0; reflexivity|congruence]|exact Z0].
    - assert (Q : a <> f) by (intros ->; tauto). rewrite <- (IH N2 I). destruct (Z.of_nat i <=? repeats a)%Z; [cbn [count_occ]; destruct (string_dec a f); [congruence|reflexivity]|reflexivity]. }
  assert (K : forall b, count_occ string_dec (flat_map (in_round repeats inputs) (seq 0 b)) f = Nat.min b (Z.to_nat (repeats f + 1))).
  { induction b as [|b IH]; [reflexivity|]. rewrite seq_S, flat_map_app, count_occ_app, IH. cbn [flat_map]. rewrite app_nil_r, O, Nat.add_0_l. destruct (Z.leb_spec (Z.of_nat b) (repeats f)); lia. }
  rewrite K. lia.
Qed.

(** * Digital feature maps *)
Definition rotation (g : fm_args) (r : rot) : Prop := g_operation g = Some (OpRot r) \/ g_operation g = None /\ r = RX_.
Section Fm.
  Variable si : list nat -> list nat.
  Hypothesis Hs : set_order si.
  Variable arx : R -> block.
  Variable rmap : bool -> nat -> string -> env -> option block.

  Lemma digital_config g c r : fm_post_init arx g = Some c -> g_strategy g = DIGITAL -> rotation g r -> c_strategy c = DIGITAL /\ c_operation c = Some (OpRot r).
  Proof.
    intros H S O. unfold fm_post_init in H. rewrite S in H. destruct (match g_multivariate g with Parallel => true | _ => true end) eqn:Q; [|destruct (g_multivariate g); discriminate].
    destruct (settle_strategy arx DIGITAL (g_operation g)) as [s op] eqn:E.
    destruct (settle_inputs _ _) as [i|]; [|discriminate]. cbn [obind] in H. do 5 (destruct (settle i _); [|discriminate]). cbn [obind] in H. injection H as <-. cbn.
    destruct O as [O|[O ->]]; rewrite O in E; cbn in E; injection E as <- <-; auto.
  Qed.
  Lemma repeats_dict g c : dictionaries g -> fm_post_init arx g = Some c -> NoDup (c_inputs c) -> NoDup (map fst (c_num_repeats c)) /\ forall f, In f (map fst (c_num_repeats c)) <-> In f (c_inputs c).
  Proof.
    intros (_ & _ & _ & _ & D5) H N. unfold fm_post_init in H. destruct (match g_multivariate g, g_strategy g with Parallel, DIGITAL => true | Parallel, _ => Nat.leb (g_num_features g) 1 | _, _ => true end); [|discriminate].
    destruct (settle_strategy _ _ _) as [s op]. destruct (settle_inputs _ _) as [i|]; [|discriminate]. cbn [obind] in H.
    do 4 (destruct (settle i _); [|discriminate]). destruct (settle i (g_num_repeats g)) as [d5|] eqn:E5; [|discriminate]. cbn [obind] in H. injection H as <-. cbn in *.
    split; [|apply (settle_spec _ _ _ E5 D5)]. destruct (g_num_repeats g) as [v|d]; simpl in E5, D5.
    - injection E5 as <-. rewrite map_map. cbn [fst]. rewrite map_id. exact N.
    - destruct (same_keys _ _); [|discriminate]. injection E5 as <-. exact D5.
  Qed.
  Lemma feature_block_spec g c r rho n s f b : dictionaries g -> fm_post_init arx g = Some c -> c_operation c = Some (OpRot r) -> In f (c_inputs c) ->
    feature_block si c rho n s f = Some b -> encodes g r rho n s f b.
  Proof.
    intros D H O Hf E. destruct (C63_config arx g c D H) as (_ & _ & _ & P & _ & V). destruct (V f Hf) as (V1 & V2 & V3 & V4 & _). unfold feature_block in E. rewrite O in E.
    destruct (get (c_basis_set c) f) as [bs|]; [|discriminate]. destruct (get (c_reupload_scaling c) f) as [rs|]; [|discriminate].
    destruct (get (c_feature_range c) f) as [fr|]; [|discriminate]. destruct (get (c_target_range c) f) as [tr|]; [|discriminate]. cbn [obind] in E.
    destruct (feature_map n (Some s) bs rs fr tr None (weights c rho f) (rho f)) as [gs|] eqn:F; [|discriminate]. cbn [obind] in E. unfold weights in F. rewrite P in F.
    apply (mk_kron_some si Hs) in E as (-> & _). exists bs, rs, fr, tr, gs. split; [apply V1; reflexivity|]. split; [apply V2; reflexivity|]. split; [apply V3; reflexivity|]. split; [apply V4; reflexivity|]. auto.
  Qed.
  Lemma get_support (inputs : list string) (parts : list (list nat)) f s : NoDup inputs -> length parts = length inputs -> get (rev (combine inputs parts)) f = Some s ->
    exists k, nth_error inputs k = Some f /\ nth_error parts k = Some s.
  Proof.
    intros N L G. apply get_In in G. apply in_rev in G. clear N L. revert parts G. induction inputs as [|a l IH]; intros [|p parts] G; cbn in G; try (destruct G; fail).
    destruct G as [G|G]; [injection G as -> ->; exists 0; auto|]. destruct (IH parts G) as (k & A & B). exists (S k). auto.
  Qed.

  (** Series encoding: one block after the other, on all qubits, in the order of the uploads. *)
  Theorem C63_series : forall g c r repeats bound n rho bs, dictionaries g -> fm_post_init arx g = Some c ->
    g_strategy g = DIGITAL -> g_multivariate g = Series -> rotation g r -> NoDup (c_inputs c) ->
    (forall f, In f (c_inputs c) -> given (g_num_repeats g) f (repeats f)) -> (forall f, In f (c_inputs c) -> (repeats f < Z.of_nat bound)%Z) ->
    create_fm_blocks si rmap n c rho = Some bs ->
    Forall2 (encodes g r rho n (seq 0 n)) (uploads repeats (c_inputs c) bound) bs.
  Proof.
    intros g c r repeats bound n rho bs D H S M O N R B E. destruct (digital_config g c r H S O) as [CS CO].
    destruct (C63_config arx g c D H) as (_ & NF & CM & _ & _ & V). destruct (repeats_dict g c D H N) as [K1 K2].
    unfold create_fm_blocks, create_digital_fm in E. rewrite CS, CM, M in E. unfold encode_features_series_digital in E.
    destruct (support_arrays c n) as [sup|] eqn:ES; [|discriminate]. cbn [obind] in E.
    assert (SUP : forall f s, get sup f = Some s -> s = seq 0 n).
    { unfold support_arrays in ES. rewrite CM, M in ES. cbn in ES. injection ES as <-. intros f s G. apply get_In, in_rev, in_combine_r in G. apply in_map_iff in G as (i & <- & _). reflexivity. }
    destruct (rounds c) as [rs|] eqn:ER; [|discriminate]. cbn [obind] in E.
    assert (NE : c_inputs c <> []). { intros Q. unfold rounds in ER. destruct (c_num_repeats c) as [|[k v] t]; [discriminate ER|]. rewrite Q in K2. destruct (proj1 (K2 k) (or_introl eq_refl)). }
    destruct (rounds_spec c repeats N NE K1 K2) as (m & Mo & RS); [intros f Hf; apply (proj2 (proj2 (proj2 (proj2 (V f Hf))))), R, Hf|].
    rewrite RS in ER. injection ER as <-. rewrite (uploads_bound repeats (c_inputs c) m bound Mo B) in E. apply osequence_map_some in E.
    assert (IN : forall f, In f (uploads repeats (c_inputs c) bound) -> In f (c_inputs c)) by (intros f Hf; apply in_flat_map in Hf as (i & _ & Hf); apply filter_In in Hf; tauto).
    revert E. generalize IN. generalize (uploads repeats (c_inputs c) bound) as l. clear - D H CO SUP Hs. induction l as [|f l IH] in bs |- *; intros IN E; inversion E as [|? b ? ys E1 E2]; subst; constructor.
    - destruct (get sup f) as [s|] eqn:G; [|discriminate]. cbn [obind] in E1. apply SUP in G. subst s. apply (feature_block_spec g c r rho n (seq 0 n) f b D H CO (IN f (or_introl eq_refl)) E1).
    - apply IH; [intros h Hh; apply IN; right; exact Hh|exact E2].
  Qed.

  (** With the Rydberg strategy every upload is a Rydberg feature map on all qubits, with growing weights if the scaling of the feature is TOWER and
      without weights if it is CONSTANT; other scalings raise an exception. *)
  Theorem C63_rydberg : forall g c repeats bound n rho bs, dictionaries g -> fm_post_init arx g = Some c ->
    g_strategy g = RYDBERG -> g_operation g = None -> NoDup (c_inputs c) ->
    (forall f, In f (c_inputs c) -> given (g_num_repeats g) f (repeats f)) -> (forall f, In f (c_inputs c) -> (repeats f < Z.of_nat bound)%Z) ->
    create_fm_blocks si rmap n c rho = Some bs ->
    Forall2 (fun f b => (given (g_reupload_scaling g) f CONSTANT /\ rmap false n f rho = Some b) \/ (given (g_reupload_scaling g) f TOWER /\ rmap true n f rho = Some b))
      (uploads repeats (c_inputs c) bound) bs.
  Proof.
    intros g c repeats bound n rho bs D H S OP N R B E.
    assert (CS : c_strategy c = RYDBERG).
    { unfold fm_post_init in H. rewrite S in H. destruct (match g_multivariate g with Parallel => Nat.leb (g_num_features g) 1 | _ => true end); [|destruct (g_multivariate g); discriminate].
      destruct (settle_strategy arx RYDBERG (g_operation g)) as [s op] eqn:Q. destruct (settle_inputs _ _) as [i|]; [|destruct (g_multivariate g); discriminate]. cbn [obind] in H.
      revert H. destruct (g_multivariate g); do 5 (destruct (settle i _); [|discriminate]); cbn [obind]; intros H; injection H as <-; cbn; rewrite OP in Q; cbn in Q; injection Q as <- _; reflexivity. }
    destruct (C63_config arx g c D H) as (_ & NF & CM & _ & _ & V). destruct (repeats_dict g c D H N) as [K1 K2].
    unfold create_fm_blocks, create_rydberg_fm in E. rewrite CS in E.
    destruct (rounds c) as [rs|] eqn:ER; [|discriminate]. cbn [obind] in E.
    assert (NE : c_inputs c <> []). { intros Q. unfold rounds in ER. destruct (c_num_repeats c) as [|[k v] t]; [discriminate ER|]. rewrite Q in K2. destruct (proj1 (K2 k) (or_introl eq_refl)). }
    destruct (rounds_spec c repeats N NE K1 K2) as (m & Mo & RS); [intros f Hf; apply (proj2 (proj2 (proj2 (proj2 (V f Hf))))), R, Hf|].
    rewrite RS in ER. injection ER as <-. rewrite (uploads_bound repeats (c_inputs c) m bound Mo B) in E. apply osequence_map_some in E.
    assert (IN : forall f, In f (uploads repeats (c_inputs c) bound) -> In f (c_inputs c)) by (intros f Hf; apply in_flat_map in Hf as (i & _ & Hf); apply filter_In in Hf; tauto).
    revert E. generalize IN. generalize (uploads repeats (c_inputs c) bound) as l. clear - V. induction l as [|f l IH] in bs |- *; intros IN E; inversion E as [|? b ? ys E1 E2]; subst; constructor.
    - destruct (V f (IN f (or_introl eq_refl))) as (_ & V2 & _). destruct (get (c_reupload_scaling c) f) as [sc|]; [|discriminate E1]. cbn [obind] in E1. destruct sc; try discriminate E1; [left|right]; (split; [apply V2; reflexivity|exact E1]).
    - apply IH; [intros h Hh; apply IN; right; exact Hh|exact E2].
  Qed.

  (** Parallel encoding: as many layers as the feature uploaded most often needs; in layer i the features that are to be repeated i times or more,
      each on its own share of the qubits. *)
  Theorem C63_parallel : forall g c r repeats n rho bs, dictionaries g -> fm_post_init arx g = Some c ->
    g_strategy g = DIGITAL -> g_multivariate g = Parallel -> rotation g r -> NoDup (c_inputs c) ->
    (forall f, In f (c_inputs c) -> given (g_num_repeats g) f (repeats f)) ->
    create_fm_blocks si rmap n c rho = Some bs ->
    exists shares m, length shares = length (c_inputs c) /\ concat shares = seq 0 n /\ (forall a b, In a shares -> In b shares -> length a <= S (length b)) /\
      most repeats (c_inputs c) m /\ length bs = Z.to_nat (m + 1) /\
      forall i b, nth_error bs i = Some b -> exists layer, b = BKron layer /\ NoDup (flat_map S_Den.qubits layer) /\
        Forall2 (fun f e => exists k share, nth_error (c_inputs c) k = Some f /\ nth_error shares k = Some share /\ encodes g r rho (length share) share f e)
          (in_round repeats (c_inputs c) i) layer.
  Proof.
    intros g c r repeats n rho bs D H S M O N R E. destruct (digital_config g c r H S O) as [CS CO].
    destruct (C63_config arx g c D H) as ((_ & LI) & NF & CM & _ & _ & V). destruct (repeats_dict g c D H N) as [K1 K2].
    unfold create_fm_blocks, create_digital_fm in E. rewrite CS, CM, M in E. unfold encode_features_parallel_digital in E.
    destruct (support_arrays c n) as [sup|] eqn:ES; [|discriminate]. cbn [obind] in E.
    unfold support_arrays in ES. rewrite CM, M in ES. destruct (create_support_arrays n (c_num_features c) Parallel) as [parts|] eqn:EP; [|discriminate]. cbn [obind] in ES. injection ES as <-.
    destruct (rounds c) as [rs|] eqn:ER; [|discriminate]. cbn [obind] in E.
    assert (NE : c_inputs c <> []). { intros Q. unfold rounds in ER. destruct (c_num_repeats c) as [|[k v] t]; [discriminate ER|]. rewrite Q in K2. destruct (proj1 (K2 k) (or_introl eq_refl)). }
    destruct (rounds_spec c repeats N NE K1 K2) as (m & Mo & RS); [intros f Hf; apply (proj2 (proj2 (proj2 (proj2 (V f Hf))))), R, Hf|].
    rewrite RS in ER. injection ER as <-. apply osequence_map_some in E.
    assert (P : length parts = c_num_features c /\ in_order_partition n parts /\ balanced parts).
    { destruct (le_lt_dec (c_num_features c) n) as [Le|Lt]; [|rewrite C37_errors in EP by (left; exact Lt); discriminate].
      destruct (C37_support_arrays n (c_num_features c)) as (p & E' & A & B & B' & _); [rewrite NF; destruct (c_inputs c); [tauto|simpl in LI; lia]|exact Le|]. rewrite EP in E'. injection E' as <-. auto. }
    destruct P as (P1 & P2 & P3). exists parts, m. split; [congruence|]. split; [exact P2|]. split; [exact P3|]. split; [exact Mo|].
    split; [apply F2_length in E; rewrite <- E, map_length, seq_length; reflexivity|].
    intros i b Hb.
    assert (Q : obind (osequence (map (fun f => obind (get (rev (combine (c_inputs c) parts)) f) (fun s => feature_block si c rho (length s) s f)) (in_round repeats (c_inputs c) i))) (mk_kron si) = Some b).
    { clear - E Hb. assert (G : forall l k, Forall2 (fun x y => obind (osequence (map (fun f => obind (get (rev (combine (c_inputs c) parts)) f) (fun s => feature_block si c rho (length s) s f)) x)) (mk_kron si) = Some y) (map (in_round repeats (c_inputs c)) (seq k (length l))) l ->
        forall i b, nth_error l i = Some b -> obind (osequence (map (fun f => obind (get (rev (combine (c_inputs c) parts)) f) (fun s => feature_block si c rho (length s) s f)) (in_round repeats (c_inputs c) (k + i)))) (mk_kron si) = Some b).
      { induction l as [|x l IH]; intros k F [|j] y Hy; try discriminate Hy; cbn [length seq map] in F; inversion F as [|? ? ? ? F1 F2]; subst.
        - injection Hy as <-. rewrite Nat.add_0_r. exact F1.
        - replace (k + S j) with (S k + j) by lia. apply (IH (S k) F2 j y Hy). }
      assert (L : length bs = Z.to_nat (m + 1)) by (apply F2_length in E; rewrite <- E, map_length, seq_length; reflexivity).
      apply (G bs 0); [rewrite L; exact E|exact Hb]. }
    destruct (osequence _) as [layer|] eqn:EL; [|discriminate]. cbn [obind] in Q. apply (mk_kron_some si Hs) in Q as (-> & _ & FO). exists layer. split; [reflexivity|].
    apply osequence_map_some in EL.
    assert (F : Forall2 (fun f e => exists k share, nth_error (c_inputs c) k = Some f /\ nth_error parts k = Some share /\ encodes g r rho (length share) share f e) (in_round repeats (c_inputs c) i) layer).
    { assert (IN : forall f, In f (in_round repeats (c_inputs c) i) -> In f (c_inputs c)) by (intros f Hf; apply filter_In in Hf; tauto).
      revert EL IN. generalize (in_round repeats (c_inputs c) i) as l. clear - D H CO N P1 NF LI Hs. induction l as [|f l IH] in layer |- *; intros E IN; inversion E as [|? b ? ys E1 E2]; subst; constructor.
      - destruct (get (rev (combine (c_inputs c) parts)) f) as [s|] eqn:G; [|discriminate]. cbn [obind] in E1. apply get_support in G as (k & A & B); [|exact N|congruence]. exists k, s. split; [exact A|]. split; [exact B|].
        apply (feature_block_spec g c r rho (length s) s f b D H CO (IN f (or_introl eq_refl)) E1).
      - apply IH; [exact E2|intros h Hh; apply IN; right; exact Hh]. }
    split; [|exact F].
    assert (QB : Forall (fun e => NoDup (S_Den.qubits e)) layer).
    { clear - F P2. assert (NP : forall p, In p parts -> NoDup p).
      { intros p Hp. assert (NN : NoDup (concat parts)) by (rewrite P2; apply seq_NoDup). clear - NN Hp. induction parts as [|x l IH]; [destruct Hp|]. cbn [concat] in NN. destruct Hp as [->|Hp]; [apply (L_Loc.NoDup_app_inv _ _ NN)|apply IH; [exact Hp|apply (L_Loc.NoDup_app_inv _ _ NN)]]. }
      induction F as [|f e l es (k & share & _ & A & (bs & sc & fr & tr & gs & _ & _ & _ & _ & FM & ->)) F IH]; constructor; [|exact IH].
      destruct (C26_gates _ _ _ _ _ _ _ _ _ _ FM) as (s & v & _ & S2 & _ & _ & MF & _). specialize (S2 share eq_refl). subst s.
      cbn [S_Den.qubits]. replace (flat_map S_Den.qubits (map (fun qa : nat * R => BRot r (fst qa) (ECst (RtoC (snd qa)))) gs)) with (map fst gs); [rewrite MF; apply NP, (nth_error_In _ _ A)|].
      clear. induction gs as [|x gs IH]; [reflexivity|]. cbn [map flat_map]. rewrite <- IH. reflexivity. }
    clear - FO QB. induction FO as [|e es F1 F2 IH]; [constructor|]. inversion QB as [|? ? B1 B2]; subst. cbn [flat_map]. apply L_Ops.NoDup_app_intro; [exact B1|apply IH, B2|].
    intros q H1 H2. apply in_flat_map in H2 as (e' & I1 & I2). rewrite Forall_forall in F1. exact (F1 e' I1 q H1 I2).
  Qed.
End Fm.

(** * Every accepted digital configuration gives a feature map *)
Section FmDefined.
  Variable si : list nat -> list nat.
  Hypothesis Hs : set_order si.
  Variable arx : R -> block.
  Variable rmap : bool -> nat -> string -> env -> option block.
  (** The feature range of [f] is not a single point. *)
  Definition has_range (g : fm_args) (f : string) : Prop :=
    forall basis frange, given (g_basis_set g) f basis -> given (g_feature_range g) f frange -> lo (range_or basis frange) <> hi (range_or basis frange).

  Lemma given_some {A} inputs (s : setting A) f : covers s inputs -> In f inputs -> exists a, given s f a.
  Proof.
    destruct s as [v|d]; simpl; intros C I; [exists v; reflexivity|]. apply C in I. apply in_map_iff in I as ([k a] & E & I). cbn [fst] in E. subst k. exists a. exact I.
  Qed.
  Lemma gates_qubits r (gs : list (nat * R)) : flat_map S_Den.qubits (map (fun qa => BRot r (fst qa) (ECst (RtoC (snd qa)))) gs) = map fst gs.
  Proof. induction gs as [|x gs IH]; [reflexivity|]. cbn [map flat_map]. rewrite IH. reflexivity. Qed.
  Lemma rot_disjoint r (gs : list (nat * R)) : NoDup (map fst gs) -> ForallOrdPairs disjoint_blocks (map (fun qa => BRot r (fst qa) (ECst (RtoC (snd qa)))) gs).
  Proof.
    induction gs as [|x gs IH]; intros N; [constructor|]. cbn [map] in *. inversion N as [|? ? N1 N2]; subst. constructor; [|apply IH, N2].
    apply Forall_forall. intros b Hb. apply in_map_iff in Hb as (y & <- & Hy). intros q [<-|[]] [E|[]]. cbn [fst] in *. apply N1. rewrite <- E. apply in_map, Hy.
  Qed.
  Lemma feature_block_def g c r rho s f : dictionaries g -> fm_post_init arx g = Some c -> c_operation c = Some (OpRot r) -> In f (c_inputs c) -> has_range g f -> NoDup s -> s <> [] ->
    exists b, feature_block si c rho (length s) s f = Some b /\ S_Den.qubits b = s.
  Proof.
    intros D H O Hf HR N NE. destruct (C63_config arx g c D H) as (I1 & _ & _ & P & _ & V). destruct (V f Hf) as (V1 & V2 & V3 & V4 & _).
    destruct (proj1 (C63_config_defined arx g D) (ex_intro _ c H)) as (_ & inputs & I2 & C1 & C2 & C3 & C4 & _).
    assert (EI : inputs = c_inputs c). { destruct I1 as [I1 _], I2 as [I2 _]. destruct I1 as [I1|[I1 [[? ->]|[? ->]]]], I2 as [I2|[I2 [[? ->]|[? ->]]]]; congruence. }
    subst inputs. destruct (given_some _ _ f C1 Hf) as [bs G1], (given_some _ _ f C2 Hf) as [rs G2], (given_some _ _ f C3 Hf) as [fr G3], (given_some _ _ f C4 Hf) as [tr G4].
    unfold feature_block. rewrite (proj2 (V1 bs) G1), (proj2 (V2 rs) G2), (proj2 (V3 fr) G3), (proj2 (V4 tr) G4), O. cbn [obind].
    destruct (feature_map (length s) (Some s) bs rs fr tr None (weights c rho f) (rho f)) as [gs|] eqn:F.
    - cbn [obind]. destruct (C26_gates _ _ _ _ _ _ _ _ _ _ F) as (s' & v & _ & S2 & _ & _ & MF & _). specialize (S2 s eq_refl). subst s'.
      exists (BKron (map (fun qa => BRot r (fst qa) (ECst (RtoC (snd qa)))) gs)). split; [|cbn [S_Den.qubits]; rewrite gates_qubits; exact MF].
      apply (proj1 (mk_kron_spec si Hs _)). split; [destruct gs; [cbn in MF; congruence|discriminate]|]. apply rot_disjoint. rewrite MF. exact N.
    - exfalso. unfold feature_map in F. rewrite Nat.eqb_refl in F. destruct (fm_parameter_scaling bs fr tr (rho f)) eqn:Q; [discriminate|]. apply C26_empty_range in Q. exact (HR bs fr G1 G3 Q).
  Qed.
  Lemma oseq_exists {A B} (h : A -> option B) l : (forall a, In a l -> exists y, h a = Some y) -> exists ys, osequence (map h l) = Some ys.
  Proof.
    induction l as [|a l IH]; intros H; [exists []; reflexivity|]. destruct (H a (or_introl eq_refl)) as [y E]. destruct IH as [ys E']; [intros b Hb; apply H; right; exact Hb|].
    exists (y :: ys). cbn [map osequence]. rewrite E, E'. reflexivity.
  Qed.
  Lemma get_combine (inputs : list string) : forall (parts : list (list nat)) f, NoDup inputs -> length parts = length inputs -> In f inputs -> exists s, get (rev (combine inputs parts)) f = Some s.
  Proof.
    intros parts f N L I. rewrite get_rev.
    2: { assert (E : map fst (combine inputs parts) = inputs); [|rewrite E; exact N]. clear N I. revert parts L. induction inputs as [|a l IH]; intros [|p parts] L; try discriminate L; [reflexivity|]. cbn. rewrite IH by (cbn in L; lia). reflexivity. }
    clear N. revert parts L. induction inputs as [|a l IH]; intros [|p parts] L; try discriminate L; [destruct I|]. cbn. destruct (String.eqb_spec a f) as [Q|Q]; [eexists; reflexivity|]. apply IH; [destruct I; [tauto|assumption]|cbn in L; lia].
  Qed.

  Theorem C63_fm_defined : forall g c r repeats n rho, dictionaries g -> fm_post_init arx g = Some c -> g_strategy g = DIGITAL -> rotation g r ->
    NoDup (c_inputs c) -> 0 < g_num_features g -> 0 < n -> (forall f, In f (c_inputs c) -> given (g_num_repeats g) f (repeats f)) ->
    (forall f, In f (c_inputs c) -> has_range g f) -> g_multivariate g = Series \/ g_multivariate g = Parallel /\ g_num_features g <= n ->
    exists bs, create_fm_blocks si rmap n c rho = Some bs.
  Proof.
    intros g c r repeats n rho D H S O N NF0 N0 R HR M. destruct (digital_config arx g c r H S O) as [CS CO].
    destruct (C63_config arx g c D H) as ((_ & LI) & NF & CM & _ & _ & V). destruct (repeats_dict arx g c D H N) as [K1 K2].
    assert (NE : c_inputs c <> []) by (intros Q; rewrite Q in LI; simpl in LI; lia).
    destruct (rounds_spec c repeats N NE K1 K2) as (m & Mo & RS); [intros f Hf; apply (proj2 (proj2 (proj2 (proj2 (V f Hf))))), R, Hf|].
    unfold create_fm_blocks, create_digital_fm. rewrite CS, CM. destruct M as [M|[M Le]]; rewrite M.
    - unfold encode_features_series_digital, support_arrays. rewrite CM, M. cbn [create_support_arrays obind]. rewrite RS. cbn [obind]. apply oseq_exists. intros f Hf.
      assert (If : In f (c_inputs c)). { apply in_concat in Hf as (l & Hl & Hf). apply in_map_iff in Hl as (i & <- & _). apply filter_In in Hf. tauto. }
      destruct (get_combine (c_inputs c) (map (fun _ => seq 0 n) (seq 0 (c_num_features c))) f N) as [s E]; [rewrite map_length, seq_length; congruence|exact If|]. rewrite E. cbn [obind].
      apply get_In, in_rev, in_combine_r, in_map_iff in E as (i & <- & _).
      destruct (feature_block_def g c r rho (seq 0 n) f D H CO If (HR f If) (seq_NoDup _ _)) as (b & E & _); [destruct n; [lia|discriminate]|]. rewrite seq_length in E. exists b. exact E.
    - unfold encode_features_parallel_digital, support_arrays. rewrite CM, M. destruct (C37_support_arrays n (c_num_features c)) as (parts & EP & LP & P2 & _ & P4); [lia|lia|]. rewrite EP. cbn [obind]. rewrite RS. cbn [obind].
      apply oseq_exists. intros fs Hfs. apply in_map_iff in Hfs as (i & <- & Hi). apply in_seq in Hi.
      assert (NN : NoDup (concat parts)) by (rewrite P2; apply seq_NoDup).
      assert (NP : forall p, In p parts -> NoDup p).
      { intros p Hp. clear - NN Hp. induction parts as [|x l IH]; [destruct Hp|]. cbn [concat] in NN. destruct Hp as [->|Hp]; [apply (L_Loc.NoDup_app_inv _ _ NN)|apply IH; [apply (L_Loc.NoDup_app_inv _ _ NN)|exact Hp]]. }
      assert (EX : forall f, In f (in_round repeats (c_inputs c) i) -> exists b, obind (get (rev (combine (c_inputs c) parts)) f) (fun s => feature_block si c rho (length s) s f) = Some b /\
        exists k share, nth_error (c_inputs c) k = Some f /\ nth_error parts k = Some share /\ S_Den.qubits b = share).
      { intros f Hf. assert (If : In f (c_inputs c)) by (apply filter_In in Hf; tauto). destruct (get_combine (c_inputs c) parts f N) as [s E]; [congruence|exact If|]. rewrite E. cbn [obind].
        apply get_support in E as (k & A & B); [|exact N|congruence]. assert (Is := nth_error_In _ _ B). destruct (feature_block_def g c r rho s f D H CO If (HR f If) (NP s Is) (P4 s Is)) as (b & E & Q). exists b. split; [exact E|]. exists k, s. auto. }
      destruct (oseq_exists (fun f => obind (get (rev (combine (c_inputs c) parts)) f) (fun s => feature_block si c rho (length s) s f)) (in_round repeats (c_inputs c) i)) as [ys E]; [intros f Hf; destruct (EX f Hf) as (b & E & _); exists b; exact E|].
      rewrite E. cbn [obind]. apply osequence_map_some in E.
      assert (F : Forall2 (fun f b => exists k share, nth_error (c_inputs c) k = Some f /\ nth_error parts k = Some share /\ S_Den.qubits b = share) (in_round repeats (c_inputs c) i) ys).
      { revert E EX. generalize (in_round repeats (c_inputs c) i) as l. clear. induction l as [|f l IH] in ys |- *; intros E EX; inversion E as [|? b ? zs E1 E2]; subst; constructor.
        - destruct (EX f (or_introl eq_refl)) as (b' & Q & W). rewrite E1 in Q. injection Q as <-. exact W.
        - apply IH; [exact E2|intros h Hh; apply EX; right; exact Hh]. }
      exists (BKron ys). apply (proj1 (mk_kron_spec si Hs _)). split.
      + destruct Mo as (_ & h & H1 & H2). assert (Q : In h (in_round repeats (c_inputs c) i)) by (apply filter_In; split; [exact H1|apply Z.leb_le; lia]).
        intros ->. inversion F as [EQ|]. rewrite <- EQ in Q. destruct Q.
      + assert (NR : NoDup (in_round repeats (c_inputs c) i)) by (apply NoDup_filter, N). clear - F NR NN P2 EP. induction F as [|f b l bs W F IH]; [constructor|]. inversion NR as [|? ? N1 N2]; subst. constructor; [|apply IH, N2].
        destruct W as (k & share & A & B & Q). apply Forall_forall. intros b' Hb' q Hq Hq'.
        assert (W' : exists f', In f' l /\ exists k share, nth_error (c_inputs c) k = Some f' /\ nth_error parts k = Some share /\ S_Den.qubits b' = share).
        { clear - F Hb'. induction F as [|f0 b0 l bs W F IH]; [destruct Hb'|]. destruct Hb' as [->|Hb']; [exists f0; split; [left; reflexivity|exact W]|]. destruct (IH Hb') as (f' & I & W'). exists f'. split; [right; exact I|exact W']. }
        destruct W' as (f' & If' & k' & share' & A' & B' & Q').
        assert (q < n). { assert (X : In q (concat parts)) by (apply in_concat; exists share; split; [exact (nth_error_In _ _ B)|rewrite <- Q; exact Hq]). rewrite P2 in X. apply in_seq in X. lia. }
        destruct (C37_exactly_one n (c_num_features c) parts q EP H) as (j & _ & U).
        assert (j = k) by (apply U; exists share; split; [exact B|rewrite <- Q; exact Hq]). assert (j = k') by (apply U; exists share'; split; [exact B'|rewrite <- Q'; exact Hq']). subst j. subst k'. rewrite A in A'. injection A' as <-. contradiction.
  Qed.
End FmDefined.

(** * The layers between the uploads *)
Lemma alternate_single {A} (b : A) : alternate [b] [] = [b]. Proof. reflexivity. Qed.
Section Layers.
  Variable si : list nat -> list nat.
  Hypothesis Hs : set_order si.
  Variable is_ham : block -> bool.
  Variable arx : R -> block.
  Variable rmap : bool -> nat -> string -> env -> option block.
  Variable rans : nat -> nat -> string -> option block.
  Variable rnd : string -> nat -> nat -> R.

  Lemma interleave_two n a idx b b' bs : interleave_from si is_ham rans rnd n a idx (b :: b' :: bs) =
    obind (ansatz_layer si is_ham rans rnd n a idx) (fun l => obind (interleave_from si is_ham rans rnd n a (S idx) (b' :: bs)) (fun rest => Some (b :: l :: rest))).
  Proof. reflexivity. Qed.
  Lemma interleave_spec n a : forall bs idx l, interleave_from si is_ham rans rnd n a idx bs = Some l ->
    exists ls, l = alternate bs ls /\ length ls = length bs - 1 /\ forall i x, nth_error ls i = Some x -> ansatz_layer si is_ham rans rnd n a (idx + i) = Some x.
  Proof.
    induction bs as [|b [|b' bs] IH]; intros idx l H.
    - injection H as <-. exists []. split; [reflexivity|]. split; [reflexivity|]. intros [|i] x E; discriminate E.
    - injection H as <-. exists []. split; [reflexivity|]. split; [reflexivity|]. intros [|i] x E; discriminate E.
    - rewrite interleave_two in H. destruct (ansatz_layer si is_ham rans rnd n a idx) as [x|] eqn:E; [|discriminate]. cbn [obind] in H.
      destruct (interleave_from si is_ham rans rnd n a (S idx) (b' :: bs)) as [rest|] eqn:E2; [|discriminate]. cbn [obind] in H. injection H as <-.
      destruct (IH (S idx) rest E2) as (ls & -> & L & W). exists (x :: ls). split; [reflexivity|]. split; [cbn [length] in *; lia|]. intros [|i] y Q; cbn in Q.
      + injection Q as <-. rewrite Nat.add_0_r. exact E.
      + replace (idx + S i) with (S idx + i) by lia. apply W, Q.
  Qed.

  (** The circuit: the uploads in order, between two uploads one layer of the configured ansatz with its own parameters fm_i, and at the end the
      ansatz itself.  The inputs of the model are the features in the configured order. *)
  Theorem C63_circuit : forall n c a rho circ ins, 0 < c_num_features c -> build si is_ham rmap rans rnd n c a rho = Some (circ, ins) ->
    ins = Some (c_inputs c) /\ exists bs layers ansatz, create_fm_blocks si rmap n c rho = Some bs /\ create_ansatz si is_ham rans rnd n a = Some ansatz /\
      circ = BChain [BChain (alternate bs layers); ansatz] /\ length layers = length bs - 1 /\
      forall i l, nth_error layers i = Some l ->
        create_ansatz si is_ham rans rnd n (AnsatzConfig 1 (a_type a) (a_strategy a) (a_args a) None ("fm_" ++ dec i)) = Some l.
  Proof.
    intros n c a rho circ ins NF H. unfold build in H. destruct (Nat.ltb_spec 0 (c_num_features c)); [|lia].
    destruct (create_fm_blocks si rmap n c rho) as [bs|]; [|discriminate]. cbn [obind] in H. unfold interleave_ansatz_in_fm in H.
    destruct (interleave_from si is_ham rans rnd n a 0 bs) as [l|] eqn:E; [|discriminate]. cbn [obind fst snd] in H.
    destruct (create_ansatz si is_ham rans rnd n a) as [an|]; [|discriminate]. cbn [obind] in H. unfold quantum_circuit in H. cbn [app] in H.
    destruct (n <? nqubits si (BChain [BChain l; an])); [discriminate|]. cbn [obind] in H. injection H as <- <-. split; [reflexivity|].
    destruct (interleave_spec n a bs 0 l E) as (ls & -> & L & W). exists bs, ls, an. split; [reflexivity|]. split; [reflexivity|]. split; [reflexivity|]. split; [exact L|].
    intros i x Hx. specialize (W i x Hx). unfold ansatz_layer in W. cbn [Nat.add] in W. destruct (check_ansatz _) as [a'|] eqn:CA; [|discriminate]. cbn [obind] in W.
    unfold check_ansatz in CA. cbn in CA. destruct (a_type a) eqn:T; [injection CA as <-; exact W| |].
    - destruct (a_strategy a); try discriminate CA; injection CA as <-; exact W.
    - destruct (a_strategy a); discriminate CA.
  Qed.
  Theorem C63_no_features : forall n c a rho circ ins, c_num_features c = 0 -> build si is_ham rmap rans rnd n c a rho = Some (circ, ins) ->
    ins = None /\ create_ansatz si is_ham rans rnd n a = Some circ.
  Proof.
    intros n c a rho circ ins NF H. unfold build in H. rewrite NF in H. cbn [Nat.ltb Nat.leb obind fst snd] in H. destruct (create_ansatz si is_ham rans rnd n a) as [an|]; [|discriminate]. cbn [obind app] in H.
    unfold quantum_circuit in H. destruct (n <? nqubits si an); [discriminate|]. cbn [obind] in H. injection H as <- <-. auto.
  Qed.

  (** The circuit fits on the register. *)
  Theorem C63_fits : forall n c a rho circ ins, 0 < c_num_features c -> build si is_ham rmap rans rnd n c a rho = Some (circ, ins) -> forall q, In q (S_Den.qubits circ) -> q < n.
  Proof.
    intros n c a rho circ ins NF H q Hq. destruct (C63_circuit n c a rho circ ins NF H) as (_ & bs & ls & an & _ & _ & E & _).
    assert (W : P_Overlap.wide si circ) by (apply P_Overlap.wide_composite; [exact Hs|]; eexists; left; exact E). specialize (W q Hq).
    assert (L : nqubits si circ <= n); [|lia]. unfold build in H. match type of H with obind ?o _ = _ => destruct o as [r|]; [|discriminate] end. cbn [obind] in H. destruct (create_ansatz si is_ham rans rnd n a) as [x|]; [|discriminate]. cbn [obind] in H.
    unfold quantum_circuit in H. set (blk := match _ with [b] => b | _ => _ end) in H. destruct (Nat.ltb_spec n (nqubits si blk)); [discriminate|]. cbn [obind] in H. injection H as <- <-. assumption.
  Qed.

  (** * The ansatz *)
  (** The ansatz is the function for its type with the configured depth and prefix and the arguments given, or else the defaults. *)
  Theorem C63_ansatz : forall n depth prefix m operations operation periodic,
    let ops d := match operations with Some o => o | None => d end in
    let per := match periodic with Some p => p | None => false end in
    let make t s e := create_ansatz si is_ham rans rnd n (AnsatzConfig depth t s (AnsatzArgs operations operation e periodic) m prefix) in
    (forall e op, e = Some (EntOp op) \/ e = None /\ op = E_CNOT ->
       make HEA DIGITAL e = hea_digital si n depth prefix None per (ops [RX_; RY_; RX_]) op /\
       make IIA DIGITAL e = option_map fst (iia si n depth prefix (Digital op per) (ops [RX_; RY_]) (rnd prefix))) /\
    (forall g, is_ham g = true ->
       (make HEA SDAQC (Some (EntGen g)) <> None -> make HEA SDAQC (Some (EntGen g)) = hea_sDAQC si n depth prefix None (ops [RX_; RY_; RX_]) g) /\
       make IIA SDAQC (Some (EntGen g)) = option_map fst (iia si n depth prefix (Analog g) (ops [RX_; RY_]) (rnd prefix))) /\
    (make HEA SDAQC None <> None -> exists nn, hamiltonian_factory si is_ham (alltoall n) (Some INN) None SNone SNone None false = Some nn /\
       make HEA SDAQC None = hea_sDAQC si n depth prefix None (ops [RX_; RY_; RX_]) nn) /\
    (forall e, make HEA RYDBERG e = rans n depth prefix) /\
    (forall t s e b, make t s e = Some b -> s = DIGITAL \/ (s = SDAQC /\ t <> ALA) \/ (s = RYDBERG /\ t = HEA)).
  Proof.
    intros n depth prefix m operations operation periodic ops per make. split; [|split; [|split; [|split]]].
    - intros e op [-> | [-> ->]]; split; reflexivity.
    - intros g G. unfold make, create_ansatz, create_hea, create_iia. cbn [a_type a_strategy a_args t_operations t_entangler t_periodic or_default a_depth a_prefix]. rewrite G. split; [|reflexivity].
      destruct (hamiltonian_factory _ _ _ _ _ _ _ _ _); cbn [obind]; [reflexivity|congruence].
    - unfold make, create_ansatz, create_hea. cbn [a_type a_strategy a_args t_operations t_entangler t_periodic or_default a_depth a_prefix].
      destruct (hamiltonian_factory _ _ _ _ _ _ _ _ _) as [nn|]; cbn [obind]; [|congruence]. destruct (is_ham nn); [|congruence]. intros _. exists nn. split; reflexivity.
    - reflexivity.
    - intros t s e b H. unfold make, create_ansatz, create_hea, create_iia, create_ala in H. cbn [a_type a_strategy a_args] in H. destruct t, s; try discriminate H; auto; try (right; left; split; [reflexivity|discriminate]).
  Qed.

  (** * The parameters of the layers *)
  Definition prefixed (p : string) (b : block) : Prop := forall x, In x (bvars b) -> exists y, x = (p ++ "_" ++ y)%string.
  Lemma prefixed_all p bs : Forall (prefixed p) bs -> forall x, In x (flat_map bvars bs) -> exists y, x = (p ++ "_" ++ y)%string.
  Proof. intros F x I. apply in_flat_map in I as (b & Hb & I). rewrite Forall_forall in F. exact (F b Hb x I). Qed.
  Lemma oseq_in_l {A B} (f : A -> option B) l ys y : osequence (map f l) = Some ys -> In y ys -> exists x, In x l /\ f x = Some y.
  Proof. intros H I. apply osequence_map_some in H. induction H as [|a b l ys E F IH]; [destruct I|]. destruct I as [->|I]; [exists a; split; [left; reflexivity|exact E]|]. destruct (IH I) as (x & X & Y). exists x. split; [right; exact X|exact Y]. Qed.
  Lemma rot_gates_prefixed n p s o k gs : rot_gates n p s o k = Some gs -> Forall (prefixed p) gs.
  Proof.
    intros H. apply Forall_forall. intros b Hb. destruct (oseq_in_l _ _ _ _ H Hb) as (i & _ & E). destruct (nth_error s i); [|discriminate]. injection E as <-.
    intros x [<-|[]]. eexists. reflexivity.
  Qed.
  Lemma rot_krons_prefixed n p s : forall ops k ks, rot_krons si n p s ops k = Some ks -> Forall (prefixed p) ks.
  Proof.
    induction ops as [|o ops IH]; intros k ks H; cbn [rot_krons] in H; [injection H as <-; constructor|]. destruct (rot_gates n p s o k) as [gs|] eqn:E; [|discriminate]. cbn [obind] in H.
    destruct (mk_kron si gs) as [kr|] eqn:E2; [|discriminate]. cbn [obind] in H. destruct (rot_krons si n p s ops (k + n)) as [rest|] eqn:E3; [|discriminate]. injection H as <-.
    apply (mk_kron_some si Hs) in E2 as (-> & _). constructor; [intros x Hx; apply (prefixed_all p gs (rot_gates_prefixed _ _ _ _ _ _ E) x Hx)|apply (IH _ _ E3)].
  Qed.
  Lemma rotations_prefixed n p s ops : forall d k rl, rotations_digital si n d p s ops k = Some rl -> Forall (prefixed p) rl.
  Proof.
    induction d as [|d IH]; intros k rl H; cbn [rotations_digital] in H; [injection H as <-; constructor|]. destruct (rot_krons si n p s ops k) as [ks|] eqn:E; [|discriminate]. cbn [obind] in H.
    destruct (rotations_digital si n d p s ops (k + n * length ops)) as [rest|] eqn:E2; [|discriminate]. injection H as <-. constructor; [intros x Hx; apply (prefixed_all p ks (rot_krons_prefixed _ _ _ _ _ _ E) x Hx)|apply (IH _ _ E2)].
  Qed.
  Lemma entangler_vars c t q op x : In x (bvars (entangler c t q op)) -> x = q.
  Proof. destruct op; simpl; intros I; (destruct I as [<-|[]]; reflexivity) || destruct I. Qed.
  Lemma ent_gates_prefixed n p s op : forall ps k gs, ent_gates n p s op ps k = Some gs -> Forall (prefixed p) gs.
  Proof.
    induction ps as [|i ps IH]; intros k gs H; cbn [ent_gates] in H; [injection H as <-; constructor|]. destruct (nth_error s i) as [c|]; [|discriminate]. cbn [obind] in H. destruct (nth_error s ((i + 1) mod n)) as [t|]; [|discriminate]. cbn [obind] in H.
    destruct (ent_gates n p s op ps (k + 1)) as [rest|] eqn:E; [|discriminate]. injection H as <-. constructor; [intros x Hx; apply entangler_vars in Hx; subst x; exists ("ent_" ++ dec k)%string; reflexivity|apply (IH _ _ E)].
  Qed.
  Lemma entanglers_prefixed n p s per op : forall d k el, entanglers_digital si n d p s per op k = Some el -> Forall (prefixed p) el.
  Proof.
    induction d as [|d IH]; intros k el H; cbn [entanglers_digital] in H; [injection H as <-; constructor|]. destruct (ent_gates n p s op (even_positions n) k) as [ev|] eqn:E1; [|discriminate]. cbn [obind] in H.
    destruct (mk_kron si ev) as [kev|] eqn:E2; [|discriminate]. cbn [obind] in H. apply (mk_kron_some si Hs) in E2 as (-> & _). pose proof (ent_gates_prefixed _ _ _ _ _ _ _ E1) as P1. destruct (2 <? n).
    - destruct (ent_gates n p s op (odd_positions n per) _) as [od|] eqn:E3; [|discriminate]. cbn [obind] in H. destruct (mk_kron si od) as [kod|] eqn:E4; [|discriminate]. cbn [obind] in H. apply (mk_kron_some si Hs) in E4 as (-> & _). pose proof (ent_gates_prefixed _ _ _ _ _ _ _ E3) as P2.
      destruct (entanglers_digital si n d p s per op _) as [rest|] eqn:E5; [|discriminate]. cbn [obind] in H. injection H as <-. constructor; [|apply (IH _ _ E5)].
      intros x Hx. cbn [bvars flat_map] in Hx. rewrite app_nil_r in Hx. apply in_app_or in Hx as [Hx|Hx]; [exact (prefixed_all p ev P1 x Hx)|exact (prefixed_all p od P2 x Hx)].
    - destruct (entanglers_digital si n d p s per op _) as [rest|] eqn:E5; [|discriminate]. cbn [obind] in H. injection H as <-. constructor; [|apply (IH _ _ E5)].
      intros x Hx. cbn [bvars flat_map] in Hx. rewrite app_nil_r in Hx. exact (prefixed_all p ev P1 x Hx).
  Qed.
  Lemma in_interleave x : forall a b, In x (interleave a b) -> In x a \/ In x b.
  Proof. induction a as [|y a IH]; intros [|z b] I; try (destruct I; fail). destruct I as [->|[->|I]]; [left; left; reflexivity|right; left; reflexivity|]. destruct (IH b I); [left; right; assumption|right; right; assumption]. Qed.
  Lemma interleave_prefixed p a b : Forall (prefixed p) a -> Forall (prefixed p) b -> prefixed p (BChain (interleave a b)).
  Proof. intros A B x Hx. cbn [bvars] in Hx. apply (prefixed_all p (interleave a b)); [|exact Hx]. rewrite Forall_forall in *. intros y Hy. apply in_interleave in Hy as [Hy|Hy]; [apply A, Hy|apply B, Hy]. Qed.
  Lemma hea_prefixed n d p sup per ops op b : hea_digital si n d p sup per ops op = Some b -> prefixed p b.
  Proof.
    intros H. unfold hea_digital in H. destruct (rotations_digital _ _ _ _ _ _ _) as [rl|] eqn:E1; [|discriminate]. cbn [obind] in H. destruct (entanglers_digital _ _ _ _ _ _ _ _) as [el|] eqn:E2; [|discriminate]. injection H as <-.
    apply interleave_prefixed; [exact (rotations_prefixed _ _ _ _ _ _ _ E1)|exact (entanglers_prefixed _ _ _ _ _ _ _ _ E2)].
  Qed.
  Lemma hea_sdaqc_prefixed n d p sup ops g b : bvars g = [] -> hea_sDAQC si n d p sup ops g = Some b -> prefixed p b.
  Proof.
    intros G H. unfold hea_sDAQC in H. destruct (rotations_digital _ _ _ _ _ _ _) as [rl|] eqn:E1; [|discriminate]. injection H as <-. apply interleave_prefixed; [exact (rotations_prefixed _ _ _ _ _ _ _ E1)|].
    apply Forall_forall. intros y Hy. apply in_map_iff in Hy as (k & <- & _). intros x Hx. cbn [bvars evars] in Hx. rewrite G in Hx. destruct Hx as [<-|[]]. exists ("t_" ++ dec k)%string. reflexivity.
  Qed.
  Lemma ala_gates_prefixed p s op : forall ps k gs, ala_gates (p ++ "_ent") s op ps k = Some gs -> Forall (prefixed p) gs.
  Proof.
    induction ps as [|i ps IH]; intros k gs H; cbn [ala_gates] in H; [injection H as <-; constructor|]. destruct (nth_error s i) as [c|]; [|discriminate]. cbn [obind] in H. destruct (nth_error s (i + 1)) as [t|]; [|discriminate]. cbn [obind] in H.
    destruct (ala_gates (p ++ "_ent") s op ps (k + 1)) as [rest|] eqn:E; [|discriminate]. injection H as <-. constructor; [|apply (IH _ _ E)].
    intros x Hx. apply entangler_vars in Hx. subst x. exists ("ent_ent_" ++ dec k)%string. rewrite append_assoc. reflexivity.
  Qed.
  Lemma ala_krons_prefixed n m d p s op : forall js k ks, ala_krons si n m d (p ++ "_ent") s op js k = Some ks -> Forall (prefixed p) ks.
  Proof.
    induction js as [|j js IH]; intros k ks H; cbn [ala_krons] in H; [injection H as <-; constructor|]. destruct (ala_gates _ _ _ _ _) as [gs|] eqn:E; [|discriminate]. cbn [obind] in H.
    destruct (mk_kron si gs) as [kr|] eqn:E2; [|discriminate]. cbn [obind] in H. destruct (ala_krons si n m d (p ++ "_ent") s op js _) as [rest|] eqn:E3; [|discriminate]. injection H as <-.
    apply (mk_kron_some si Hs) in E2 as (-> & _). constructor; [intros x Hx; apply (prefixed_all p gs (ala_gates_prefixed _ _ _ _ _ _ E) x Hx)|apply (IH _ _ E3)].
  Qed.
  Lemma entanglers_ala_prefixed n m p s op : forall t d k el, entanglers_ala si n m (p ++ "_ent") s op d t k = Some el -> Forall (prefixed p) el.
  Proof.
    induction t as [|t IH]; intros d k el H; cbn [entanglers_ala] in H; [injection H as <-; constructor|]. destruct (ala_krons _ _ _ _ _ _ _ _ _) as [ks|] eqn:E; [|discriminate]. cbn [obind] in H.
    destruct (entanglers_ala si n m (p ++ "_ent") s op (S d) t _) as [rest|] eqn:E2; [|discriminate]. injection H as <-. constructor; [intros x Hx; apply (prefixed_all p ks (ala_krons_prefixed _ _ _ _ _ _ _ _ _ E) x Hx)|apply (IH _ _ _ E2)].
  Qed.
  Lemma ala_prefixed n m d p sup ops op b : ala_digital si n m d p sup ops op = Some b -> prefixed p b.
  Proof.
    intros H. unfold ala_digital in H. destruct (rotations_digital _ _ _ _ _ _ _) as [rl|] eqn:E1; [|discriminate]. cbn [obind] in H. destruct (entanglers_ala _ _ _ _ _ _ _ _ _) as [el|] eqn:E2; [|discriminate]. injection H as <-.
    apply interleave_prefixed; [exact (rotations_prefixed _ _ _ _ _ _ _ E1)|exact (entanglers_ala_prefixed _ _ _ _ _ _ _ _ _ E2)].
  Qed.
  Lemma iia_krons_prefixed n layer p sfx v : forall ops ks t, iia_krons si n layer (p ++ "_" ++ sfx) v ops = Some (ks, t) -> Forall (prefixed p) ks.
  Proof.
    induction ops as [|[i o] ops IH]; intros ks t H; cbn [iia_krons] in H; [injection H as <- <-; constructor|]. destruct (mk_kron si _) as [kr|] eqn:E; [|discriminate]. cbn [obind] in H.
    destruct (iia_krons si n layer (p ++ "_" ++ sfx) v ops) as [[ks' t']|] eqn:E2; [|discriminate]. cbn [obind fst snd] in H. injection H as <- <-. apply (mk_kron_some si Hs) in E as (-> & _). constructor; [|apply (IH _ _ eq_refl)].
    intros x Hx. cbn [bvars] in Hx. apply in_flat_map in Hx as (b & Hb & Hx). apply in_map_iff in Hb as ([b' e'] & <- & Hb). unfold iia_gates in Hb. apply in_map_iff in Hb as (q & E & _). injection E as <- _. destruct Hx as [<-|[]].
    rewrite !append_assoc. eexists. reflexivity.
  Qed.
  Lemma iia_entanglers_prefixed n layer p ent x b : (match ent with Analog g => bvars g = [] | _ => True end) -> In b (map fst (left_entanglers n layer p ent)) -> In x (bvars b) -> exists y, x = (p ++ "_" ++ y)%string.
  Proof.
    intros G I Hx. apply in_map_iff in I as ([b' t] & <- & I). unfold left_entanglers in I. destruct ent as [op [|]|g].
    - apply in_map_iff in I as (q & E & _). unfold iia_entangler in E. injection E as <- _. apply entangler_vars in Hx. subst x. eexists. reflexivity.
    - apply in_map_iff in I as (q & E & _). unfold iia_entangler in E. injection E as <- _. apply entangler_vars in Hx. subst x. eexists. reflexivity.
    - destruct I as [E|[]]. unfold iia_entangler_analog in E. injection E as <- _. cbn [fst bvars evars] in Hx. rewrite G in Hx. destruct Hx as [<-|[]]. eexists. reflexivity.
  Qed.
  Lemma iia_prefixed n d p ent ops al b t : (match ent with Analog g => bvars g = [] | _ => True end) -> iia si n d p ent ops al = Some (b, t) -> prefixed p b.
  Proof.
    intros G H. unfold iia in H. destruct (osequence _) as [ls|] eqn:E; [|discriminate]. cbn [obind] in H. injection H as <- <-. intros x Hx. cbn [bvars] in Hx. apply in_flat_map in Hx as (bl & Hb & Hx).
    apply in_map_iff in Hb as ([b' t'] & <- & Hb). destruct (oseq_in_l _ _ _ _ E Hb) as (layer & _ & EL). cbn [fst] in Hx. unfold iia_layer in EL.
    destruct (iia_krons si n layer (p ++ "_α") (al layer) (left_ops ops)) as [[l tl]|] eqn:E1; [|discriminate]. cbn [obind] in EL. destruct (mk_kron si _) as [ce|] eqn:E2; [|discriminate]. cbn [obind] in EL.
    destruct (iia_krons si n layer (p ++ "_β") _ (right_ops ops)) as [[r tr]|] eqn:E3; [|discriminate]. cbn [obind fst snd] in EL. injection EL as <- _. apply (mk_kron_some si Hs) in E2 as (-> & _).
    cbn [bvars] in Hx. apply in_flat_map in Hx as (b0 & I & Hx). apply in_app_or in I as [I|[I|[I|I]]]; [| | |apply in_app_or in I as [I|I]].
    - pose proof (iia_krons_prefixed n layer p "α" _ _ _ _ E1) as F. rewrite Forall_forall in F. exact (F b0 I x Hx).
    - subst b0. cbn [bvars] in Hx. apply in_flat_map in Hx as (b1 & I1 & Hx). exact (iia_entanglers_prefixed n layer p ent x b1 G I1 Hx).
    - subst b0. cbn [bvars] in Hx. apply in_flat_map in Hx as (b1 & I1 & Hx). apply in_map_iff in I1 as ([b2 e2] & <- & I1). unfold centre_gates in I1. apply in_map_iff in I1 as (q & Q & _). injection Q as <- _. destruct Hx as [<-|[]]. eexists. reflexivity.
    - apply in_rev in I. exact (iia_entanglers_prefixed n layer p ent x b0 G I Hx).
    - pose proof (iia_krons_prefixed n layer p "β" _ _ _ _ E3) as F. rewrite Forall_forall in F. exact (F b0 I x Hx).
  Qed.
  Lemma nn_closed n h : hamiltonian_factory si is_ham (alltoall n) (Some INN) None SNone SNone None false = Some h -> bvars h = [].
  Proof.
    intros H. unfold hamiltonian_factory in H. cbn [option_map int_fn obind preprocess_strengths] in H.
    destruct (osequence _) as [ps|] eqn:E; [|discriminate]. cbn [obind app] in H. injection H as <-. cbn [bvars].
    assert (Z : forall b, In b ps -> bvars b = []).
    { intros b Hb. destruct (oseq_in_l _ _ _ _ E Hb) as ([w e] & I & Q). unfold interaction_nn, two, op_matmul in Q. cbn [fst snd] in Q. destruct (mk_kron si _) as [k|] eqn:M; [|discriminate]. cbn [option_map] in Q. injection Q as <-.
      apply (mk_kron_some si Hs) in M as (-> & _). apply in_combine_l in I. apply in_map_iff in I as (j & <- & _). reflexivity. }
    clear E. induction ps as [|b ps IH]; [reflexivity|]. cbn [flat_map]. rewrite (Z b (or_introl eq_refl)). apply IH. intros b' Hb'. apply Z. right. exact Hb'.
  Qed.

  (** The entangling Hamiltonian given by the user has no parameters of its own, and the ansatz is not the one of rydberg_hea. *)
  Definition plain_ansatz (a : ansatz_config) : Prop := a_strategy a <> RYDBERG /\ match t_entangler (a_args a) with Some (EntGen g) => bvars g = [] | _ => True end.
  (** The parameters of an ansatz are named after its prefix. *)
  Theorem C63_names : forall n a b, plain_ansatz a -> create_ansatz si is_ham rans rnd n a = Some b -> forall x, In x (bvars b) -> exists y, x = (a_prefix a ++ "_" ++ y)%string.
  Proof.
    intros n a b [P1 P2] H. change (prefixed (a_prefix a) b). unfold create_ansatz in H. destruct (a_type a).
    - unfold create_hea in H. destruct (a_strategy a); try discriminate H; [| |congruence].
      + destruct (t_entangler (a_args a)) as [[op|g]|]; cbn [or_default] in H; try discriminate H; exact (hea_prefixed _ _ _ _ _ _ _ _ H).
      + destruct (hamiltonian_factory _ _ _ _ _ _ _ _ _) as [nn|] eqn:E; [|discriminate]. cbn [obind] in H. destruct (t_entangler (a_args a)) as [[op|g]|]; cbn [or_default] in H; try discriminate H.
        * destruct (is_ham g); [|discriminate]. exact (hea_sdaqc_prefixed _ _ _ _ _ _ _ P2 H).
        * destruct (is_ham nn); [|discriminate]. exact (hea_sdaqc_prefixed _ _ _ _ _ _ _ (nn_closed _ _ E) H).
    - unfold create_iia in H. destruct (a_strategy a), (t_entangler (a_args a)) as [[op|g]|]; cbn [or_default] in H; try discriminate H.
      + destruct (iia _ _ _ _ _ _ _) as [[b' t]|] eqn:E; [|discriminate]. injection H as <-. exact (iia_prefixed _ _ _ (Digital _ _) _ _ _ _ I E).
      + destruct (iia _ _ _ _ _ _ _) as [[b' t]|] eqn:E; [|discriminate]. injection H as <-. exact (iia_prefixed _ _ _ (Digital _ _) _ _ _ _ I E).
      + destruct (is_ham g); [|discriminate]. destruct (iia _ _ _ _ _ _ _) as [[b' t]|] eqn:E; [|discriminate]. injection H as <-. exact (iia_prefixed _ _ _ (Analog g) _ _ _ _ P2 E).
    - unfold create_ala in H. destruct (a_strategy a), (t_entangler (a_args a)) as [[op|g]|]; cbn [or_default] in H; try discriminate H; (destruct (a_m_block_qubits a); [|discriminate]; cbn [obind] in H; exact (ala_prefixed _ _ _ _ _ _ _ _ H)).
  Qed.
  Lemma dec_sep : forall i j y z, (dec i ++ "_" ++ y)%string = (dec j ++ "_" ++ z)%string -> i = j.
  Proof.
    intros i j y z H. apply dec_inj. unfold dec in *.
    destruct (P_Checkpoint.digits_spec i i (le_n i)) as (_ & F & _), (P_Checkpoint.digits_spec j j (le_n j)) as (_ & F' & _).
    revert F F' H. generalize (M_Checkpoint.digits i i) as l, (M_Checkpoint.digits j j) as l'. induction l as [|c l IH]; intros [|c' l'] F F' H; [reflexivity| | |].
    - exfalso. cbn in H. injection H as H _. inversion F' as [|? ? D _]; subst. discriminate D.
    - exfalso. cbn in H. injection H as H _. inversion F as [|? ? D _]; subst. discriminate D.
    - cbn in H. injection H as -> H. inversion F; inversion F'; subst. cbn. f_equal. apply IH; assumption.
  Qed.
  (** No two layers share a parameter, and none is shared with the final ansatz unless its prefix begins with "fm". *)
  Theorem C63_parameters : forall n a, plain_ansatz a ->
    (forall i j l l' x, i <> j -> ansatz_layer si is_ham rans rnd n a i = Some l -> ansatz_layer si is_ham rans rnd n a j = Some l' -> In x (bvars l) -> ~ In x (bvars l')) /\
    (forall i l b x, String.prefix "fm" (a_prefix a) = false -> ansatz_layer si is_ham rans rnd n a i = Some l -> create_ansatz si is_ham rans rnd n a = Some b -> In x (bvars l) -> ~ In x (bvars b)).
  Proof.
    intros n a PA.
    assert (L : forall i l x, ansatz_layer si is_ham rans rnd n a i = Some l -> In x (bvars l) -> exists y, x = ("fm_" ++ dec i ++ "_" ++ y)%string).
    { intros i l x H Hx. unfold ansatz_layer in H. set (a' := AnsatzConfig _ _ _ _ _ _) in H. destruct (check_ansatz a') as [a''|] eqn:C; [|discriminate]. cbn [obind] in H.
      assert (a'' = a'). { unfold check_ansatz in C. destruct (a_type a'); [congruence|destruct (a_strategy a'); congruence|destruct (a_strategy a'), (a_m_block_qubits a'); congruence]. } subst a''.
      destruct (C63_names n a' l) with (x := x) as [y E]; [exact PA|exact H|exact Hx|]. exists y. rewrite E. cbn [a_prefix a']. rewrite append_assoc. reflexivity. }
    split.
    - intros i j l l' x N H H' Hx Hx'. apply (L i l x H) in Hx as [y E]. apply (L j l' x H') in Hx' as [z E']. rewrite E in E'. apply (append_inj "fm_") in E'. apply dec_sep in E'. contradiction.
    - intros i l b x P H H' Hx Hx'. apply (L i l x H) in Hx as [y E]. destruct (C63_names n a b PA H' x Hx') as [z E']. rewrite E in E'. clear - P E'.
      destruct (a_prefix a) as [|c1 s]; [discriminate E'|]. cbn in E'. injection E' as <- E'. destruct s as [|c2 s]; [discriminate E'|]. cbn in E'. injection E' as <- _. cbn in P. destruct s; discriminate P.
  Qed.
End Layers.

(** * The names of the trainable weights *)
Fixpoint no_sep (s : string) : Prop := match s with EmptyString => True | String c r => c <> "_"%char /\ no_sep r end.
Lemma dec_no_sep i : no_sep (dec i).
Proof.
  unfold dec. destruct (P_Checkpoint.digits_spec i i (le_n i)) as (_ & F & _). revert F. generalize (M_Checkpoint.digits i i) as l. induction l as [|c l IH]; intros F; [exact I|]. inversion F; subst. cbn. split; [intros ->; discriminate|apply IH; assumption].
Qed.
Lemma no_sep_app s t : ~ no_sep (s ++ String "_" t).
Proof. induction s as [|c s IH]; cbn; intros [H1 H2]; [exact (H1 eq_refl)|exact (IH H2)]. Qed.
(** Weights of different features, or of different qubits, have different names (the prefix is the same for all of them). *)
Theorem C63_weights : forall p f i f' i', (p ++ "_" ++ f ++ "_" ++ dec i)%string = (p ++ "_" ++ f' ++ "_" ++ dec i')%string -> f = f' /\ i = i'.
Proof.
  intros p f i f' i' H. apply (append_inj p), (append_inj "_") in H. pose proof (dec_no_sep i) as D. pose proof (dec_no_sep i') as D'.
  assert (G : f = f' /\ dec i = dec i'); [|destruct G as [-> G]; split; [reflexivity|apply dec_inj, G]].
  revert D D' H. generalize (dec i) as d, (dec i') as d'. revert f'. induction f as [|c f IH]; intros [|c' f'] d d' D D' H; cbn in H.
  - injection H as ->. auto.
  - injection H as _ ->. destruct (no_sep_app f' d' D).
  - injection H as _ <-. destruct (no_sep_app f d D').
  - injection H as -> H. destruct (IH f' d d' D D' H) as [-> ->]. auto.
Qed.

(** * What the configurations do not do *)
Section Findings.
  Variable si : list nat -> list nat.
  Variable is_ham : block -> bool.
  Variable arx : R -> block.
  Variable rmap : bool -> nat -> string -> env -> option block.
  Variable rans : nat -> nat -> string -> option block.
  Variable rnd : string -> nat -> nat -> R.
  Definition with_depth (d : nat) (a : ansatz_config) : ansatz_config := AnsatzConfig d (a_type a) (a_strategy a) (a_args a) (a_m_block_qubits a) (a_prefix a).
  Definition with_operations (o : option (list rot)) (a : ansatz_config) : ansatz_config :=
    AnsatzConfig (a_depth a) (a_type a) (a_strategy a) (AnsatzArgs o (t_operation (a_args a)) (t_entangler (a_args a)) (t_periodic (a_args a))) (a_m_block_qubits a) (a_prefix a).

  (** The depth of an alternating layer ansatz is ignored: every depth gives the same ansatz (_create_ala_digital does not pass it on). *)
  Theorem C63_ala_depth_refuted : forall n a d, a_type a = ALA -> create_ansatz si is_ham rans rnd n (with_depth d a) = create_ansatz si is_ham rans rnd n a.
  Proof. intros n a d T. unfold create_ansatz. cbn [a_type with_depth]. rewrite T. reflexivity. Qed.
  (** The documented argument operations of an alternating layer ansatz is ignored: the code reads "operation". *)
  Theorem C63_ala_operations_refuted : forall n a o, a_type a = ALA -> create_ansatz si is_ham rans rnd n (with_operations o a) = create_ansatz si is_ham rans rnd n a.
  Proof. intros n a o T. unfold create_ansatz. cbn [a_type with_operations]. rewrite T. reflexivity. Qed.
  (** With an alternating layer ansatz a QNN cannot have more than one upload: the layers between them are configured without m_block_qubits. *)
  Theorem C63_ala_reupload_refuted : forall n c a rho bs, a_type a = ALA -> 0 < c_num_features c -> create_fm_blocks si rmap n c rho = Some bs -> 2 <= length bs ->
    build si is_ham rmap rans rnd n c a rho = None.
  Proof.
    intros n c a rho bs T NF E L. unfold build. destruct (Nat.ltb_spec 0 (c_num_features c)); [|lia]. rewrite E. cbn [obind]. destruct bs as [|b [|b' bs]]; cbn [length] in L; try lia.
    unfold interleave_ansatz_in_fm. rewrite interleave_two. unfold ansatz_layer, check_ansatz. cbn [a_type a_strategy a_m_block_qubits]. rewrite T. destruct (a_strategy a); reflexivity.
  Qed.
  (** The identity initialized ansatz with strategy sDAQC fails unless an entangler is given: its default is the gate CNOT, although a Hamiltonian is needed
      (the documentation of AnsatzConfig names NN-interactions as the default). *)
  Theorem C63_iia_sdaqc_refuted : forall n a, a_type a = IIA -> a_strategy a = SDAQC -> t_entangler (a_args a) = None -> create_ansatz si is_ham rans rnd n a = None.
  Proof. intros n a T S E. unfold create_ansatz, create_iia. rewrite T, S, E. reflexivity. Qed.

  Definition one_feature (s : strat) (o : option operation) : fm_args :=
    FmArgs 1 (Same FOURIER) (Same CONSTANT) (Same None) (Same None) Series s None (Same 0%Z) o None.
  (** "If the type of operation is incompatible with the strategy chosen, then operation gets preference and the given strategy is ignored": the strategy is
      kept, and no feature map can be built. *)
  Theorem C63_operation_refuted : forall f r,
    (exists c, fm_post_init arx (one_feature DIGITAL (Some (OpAnalog f))) = Some c /\ c_strategy c = DIGITAL /\ forall n rho, create_fm_blocks si rmap n c rho = None) /\
    (exists c, fm_post_init arx (one_feature ANALOG (Some (OpRot r))) = Some c /\ c_strategy c = ANALOG /\ forall n rho, create_fm_blocks si rmap n c rho = None) /\
    (exists c, fm_post_init arx (one_feature RYDBERG (Some (OpAnalog f))) = Some c /\ c_strategy c = DIGITAL /\ forall n rho, create_fm_blocks si rmap n c rho = None).
  Proof.
    intros f r. split; [|split]; (eexists; split; [reflexivity|]; split; [reflexivity|]; intros n rho).
    - reflexivity.
    - transitivity (osequence [obind (fm_parameter_scaling FOURIER None None (rho "x")) (fun _ : R => @None block)]); [reflexivity|]. destruct (fm_parameter_scaling FOURIER None None (rho "x")); reflexivity.
    - reflexivity.
  Qed.
End Findings.

(** * A case *)
Section Case.
  Variable is_ham : block -> bool.
  Variable arx : R -> block.
  Variable rmap : bool -> nat -> string -> env -> option block.
  Variable rans : nat -> nat -> string -> option block.
  Variable rnd : string -> nat -> nat -> R.
  Definition hea_config (prefix : string) : ansatz_config := AnsatzConfig 2 HEA DIGITAL (AnsatzArgs None None None None) None prefix.
  Definition ala_config (m : option nat) : ansatz_config := AnsatzConfig 3 ALA DIGITAL (AnsatzArgs None None None None) m "theta".

  (** The prefix "fm_0" is accepted, and then the layer after the first upload and the final ansatz share a parameter. *)
  Theorem C63_prefix_refuted : exists l b x, check_ansatz (hea_config "fm_0") = Some (hea_config "fm_0") /\ plain_ansatz (hea_config "fm_0") /\
    ansatz_layer sorted_set is_ham rans rnd 2 (hea_config "fm_0") 0 = Some l /\ create_ansatz sorted_set is_ham rans rnd 2 (hea_config "fm_0") = Some b /\ In x (bvars l) /\ In x (bvars b).
  Proof.
    eexists _, _, "fm_0_0"%string. split; [reflexivity|]. split; [split; [discriminate|exact I]|]. split; [reflexivity|]. split; [reflexivity|]. split; left; reflexivity.
  Qed.
  Example C63_ala_case : exists b, create_ansatz sorted_set is_ham rans rnd 4 (ala_config (Some 2)) = Some b /\ length (bvars b) = 12.
  Proof. eexists. split; reflexivity. Qed.

  Definition two_features (m : strategy) : fm_args :=
    FmArgs 2 (Same FOURIER) (PerFeature [("x", TOWER); ("t", CONSTANT)]) (Same None) (Same None) m DIGITAL (Some "w") (PerFeature [("t", 1%Z); ("x", 0%Z)]) None (Some ["t"; "x"]).
  Definition repeats_case (f : string) : Z := if String.eqb f "t" then 1 else 0.
  Lemma fourier_range : lo (range_or FOURIER None) <> hi (range_or FOURIER None).
  Proof.
    unfold lo, hi, range_or. cbn [fst snd]. pose proof Rtrigo1.PI_RGT_0 as P. assert (Q : (0 < 2 * PI)%R) by (apply Rmult_lt_0_compat; [apply Rlt_0_2|exact P]).
    cbn. rewrite Rmin_left, Rmax_right by (left; exact Q). intros E. rewrite <- E in Q. exact (Rlt_irrefl 0 Q).
  Qed.
  Lemma scaled x : exists v, fm_parameter_scaling FOURIER None None x = Some v.
  Proof. destruct (fm_parameter_scaling FOURIER None None x) as [v|] eqn:E; [exists v; reflexivity|]. apply C26_empty_range in E. destruct (fourier_range E). Qed.

  Example C63_case : forall m rho, m = Series \/ m = Parallel -> dictionaries (two_features m) /\ rotation (two_features m) RX_ /\ exists c, fm_post_init arx (two_features m) = Some c /\
    NoDup (c_inputs c) /\ (forall f, In f (c_inputs c) -> given (g_num_repeats (two_features m)) f (repeats_case f)) /\ (forall f, In f (c_inputs c) -> has_range (two_features m) f) /\
    uploads repeats_case (c_inputs c) 2 = ["t"; "x"; "t"] /\ exists bs circ, create_fm_blocks sorted_set rmap 2 c rho = Some bs /\ length bs = (match m with Series => 3 | _ => 2 end) /\
    build sorted_set is_ham rmap rans rnd 2 c (hea_config "theta") rho = Some (circ, Some ["t"; "x"]) /\ plain_ansatz (hea_config "theta") /\ String.prefix "fm" "theta" = false.
  Proof.
    intros m rho M. destruct (scaled (rho "t")) as [vt Et], (scaled (rho "x")) as [vx Ex].
    split; [repeat split; cbn; repeat constructor; simpl; intuition discriminate|]. split; [right; split; reflexivity|]. eexists. split; [destruct M as [->| ->]; reflexivity|].
    cbn [c_inputs]. split; [repeat constructor; simpl; intuition discriminate|]. split; [intros f [<-|[<-|[]]]; cbn; auto|]. split; [intros f _ b r B F; cbn in B, F; subst; exact fourier_range|]. split; [reflexivity|].
    set (c := FmConfig _ _ _ _ _ _ _ _ _ _ _).
    assert (FB : forall n s f v, In f ["t"; "x"] -> length s = n -> fm_parameter_scaling FOURIER None None (rho f) = Some v ->
      feature_block sorted_set c rho n s f = mk_kron sorted_set (map (fun qa => BRot RX_ (fst qa) (ECst (RtoC (snd qa))))
        (map (fun iq => let '(i, q) := iq in (q, 1 * rs_func (if String.eqb f "t" then CONSTANT else TOWER) i * (rho ("w_" ++ f ++ "_" ++ dec i)%string * v))%R) (combine (seq 0 (length s)) s)))).
    { intros n s f v If L E. unfold feature_block. assert (G1 : get (c_basis_set c) f = Some FOURIER) by (destruct If as [<-|[<-|[]]]; reflexivity).
      assert (G2 : get (c_reupload_scaling c) f = Some (if String.eqb f "t" then CONSTANT else TOWER)) by (destruct If as [<-|[<-|[]]]; reflexivity).
      assert (G3 : get (c_feature_range c) f = Some None) by (destruct If as [<-|[<-|[]]]; reflexivity). assert (G4 : get (c_target_range c) f = Some None) by (destruct If as [<-|[<-|[]]]; reflexivity).
      rewrite G1, G2, G3, G4. cbn [obind c_operation c]. unfold feature_map. rewrite L, Nat.eqb_refl, E. rewrite <- L. reflexivity. }
    assert (Ft := fun n s L => FB n s "t" vt (or_introl eq_refl) L Et). assert (Fx := fun n s L => FB n s "x" vx (or_intror (or_introl eq_refl)) L Ex). clear FB.
    assert (CB : exists bs, create_fm_blocks sorted_set rmap 2 c rho = Some bs /\ length bs = (match m with Series => 3 | _ => 2 end) /\ exists circ, build sorted_set is_ham rmap rans rnd 2 c (hea_config "theta") rho = Some (circ, Some ["t"; "x"])).
    { assert (BU : forall bs circ, create_fm_blocks sorted_set rmap 2 c rho = Some bs -> obind (interleave_ansatz_in_fm sorted_set is_ham rans rnd 2 bs (hea_config "theta")) (fun fm => obind (create_ansatz sorted_set is_ham rans rnd 2 (hea_config "theta")) (fun an =>
        quantum_circuit sorted_set 2 [fm; an])) = Some circ -> build sorted_set is_ham rmap rans rnd 2 c (hea_config "theta") rho = Some (circ, Some ["t"; "x"])).
      { intros bs circ E Q. unfold build. change (0 <? c_num_features c) with true. cbv iota. rewrite E. cbn [obind]. destruct (interleave_ansatz_in_fm _ _ _ _ _ _ _); [|discriminate Q]. cbn [obind fst snd] in *. destruct (create_ansatz _ _ _ _ _ _); [|discriminate Q]. cbn [obind app] in *. rewrite Q. reflexivity. }
      destruct M as [E| E]; subst m.
      - assert (Q : exists bs, create_fm_blocks sorted_set rmap 2 c rho = Some bs /\ length bs = 3 /\ exists circ, obind (interleave_ansatz_in_fm sorted_set is_ham rans rnd 2 bs (hea_config "theta")) (fun fm => obind (create_ansatz sorted_set is_ham rans rnd 2 (hea_config "theta")) (fun an => quantum_circuit sorted_set 2 [fm; an])) = Some circ).
        { assert (E : create_fm_blocks sorted_set rmap 2 c rho = osequence [feature_block sorted_set c rho 2 [0; 1] "t"; feature_block sorted_set c rho 2 [0; 1] "x"; feature_block sorted_set c rho 2 [0; 1] "t"]) by reflexivity.
          rewrite E, (Ft 2 [0; 1] eq_refl), (Fx 2 [0; 1] eq_refl). eexists. split; [reflexivity|]. split; [reflexivity|]. eexists. reflexivity. }
        destruct Q as (bs & Q1 & Q2 & circ & Q3). exists bs. split; [exact Q1|]. split; [exact Q2|]. exists circ. exact (BU bs circ Q1 Q3).
      - assert (Q : exists bs, create_fm_blocks sorted_set rmap 2 c rho = Some bs /\ length bs = 2 /\ exists circ, obind (interleave_ansatz_in_fm sorted_set is_ham rans rnd 2 bs (hea_config "theta")) (fun fm => obind (create_ansatz sorted_set is_ham rans rnd 2 (hea_config "theta")) (fun an => quantum_circuit sorted_set 2 [fm; an])) = Some circ).
        { assert (E : create_fm_blocks sorted_set rmap 2 c rho = osequence [obind (osequence [feature_block sorted_set c rho 1 [0] "t"; feature_block sorted_set c rho 1 [1] "x"]) (mk_kron sorted_set); obind (osequence [feature_block sorted_set c rho 1 [0] "t"]) (mk_kron sorted_set)]) by reflexivity.
          rewrite E, (Ft 1 [0] eq_refl), (Fx 1 [1] eq_refl). eexists. split; [reflexivity|]. split; [reflexivity|]. eexists. reflexivity. }
        destruct Q as (bs & Q1 & Q2 & circ & Q3). exists bs. split; [exact Q1|]. split; [exact Q2|]. exists circ. exact (BU bs circ Q1 Q3). }
    destruct CB as (bs & Q1 & Q2 & circ & Q3). exists bs, circ. split; [exact Q1|]. split; [exact Q2|]. split; [exact Q3|]. split; [split; [discriminate|exact I]|reflexivity].
  Qed.
End Case.

Print Assumptions C63_config.
Print Assumptions C63_config_defined.
Print Assumptions C63_upload_count.
Print Assumptions C63_series.
Print Assumptions C63_parallel.
Print Assumptions C63_fm_defined.
Print Assumptions C63_circuit.
Print Assumptions C63_no_features.
Print Assumptions C63_fits.
Print Assumptions C63_ansatz.
Print Assumptions C63_names.
Print Assumptions C63_parameters.
Print Assumptions C63_weights.
Print Assumptions C63_ala_depth_refuted.
Print Assumptions C63_ala_operations_refuted.
Print Assumptions C63_ala_reupload_refuted.
Print Assumptions C63_iia_sdaqc_refuted.
Print Assumptions C63_operation_refuted.
Print Assumptions C63_prefix_refuted.
Print Assumptions C63_rydberg.
