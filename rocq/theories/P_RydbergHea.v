(** C69: the ansatz and the feature maps for neutral atoms. *)
From Coq Require Import String Ascii Reals List Arith Bool Lia Lra FunctionalExtensionality Permutation.
From Coquelicot Require Import Coquelicot.
From Coq Require Import List.
From Verif Require M_Analog P_Analog M_PSR M_Register M_Addressing.
From Verif Require Import S_Transpile L_Transpile S_Sets S_Ops L_Ops M_QubitSupport M_Block S_Den L_Den L_Loc L_Adj M_BlockOps M_Tensor M_Transpile L_Support P_Operators
  M_Checkpoint M_Names L_Names P_Hea L_Diag P_Qft M_Hamiltonians P_Hamiltonians M_Rydberg P_Rydberg M_Convert M_FeatureMap P_FeatureMap M_RydbergHea.
Import ListNotations.
Open Scope R_scope.
Open Scope C_scope.

(** * Specification *)
(** The interaction: the sum of n_i n_j over the edges of the register. *)
Definition H_edges (r : hreg) : Op := sum_of (hedges r) (fun e => seqop (N_ (fst e)) (N_ (snd e))).
(** The laser: the sum of w_j (cos phi X_j - sin phi Y_j) over the qubits; the sum of w_j X_j without a phase. *)
Definition H_laser (n : nat) (w : nat -> C) (phase : option R) : Op :=
  sum_of (seq 0 n) (fun j => scaleop (w j) (match phase with
    | Some p => addop (scaleop (RtoC (cos p)) (X_ j)) (scaleop (RtoC (- sin p)) (Y_ j))
    | None => X_ j end)).
(** The detuning: the sum of w_j n_j. *)
Definition H_detuning (n : nat) (w : nat -> C) : Op := sum_of (seq 0 n) (fun j => scaleop (w j) (N_ j)).
(** One layer: laser and interaction together, then the interaction alone, then the detuning alone. *)
Definition layer_means (r : hreg) (t_drive t_wait t_det : R) (phase : option R) (drive detuning : nat -> C) (E : Op) : Prop :=
  exists E1 E2 E3, E = seqop E1 (seqop E2 E3) /\
    evolves (addop (H_laser (length (hnodes r)) drive phase) (H_edges r)) t_drive E1 /\
    evolves (H_edges r) t_wait E2 /\
    evolves (H_detuning (length (hnodes r)) detuning) t_det E3.
(** The weight of qubit [j]: 1 by default, 0 beyond the end of a list that is too short. *)
Definition weight_of (rho : env) (ws : option (list expr)) (j : nat) : C := match ws with None => RtoC 1 | Some l => ev rho (nth j l (ECst 0)) end.

(** * Proofs *)
Lemma combine_seq_map {A} (l : list A) d : combine (seq 0 (length l)) l = map (fun j => (j, nth j l d)) (seq 0 (length l)).
Proof.
  induction l as [|x l IH] using rev_ind; [reflexivity|]. rewrite app_length. cbn [length]. rewrite Nat.add_1_r, seq_S, map_app. cbn [Nat.add map].
  rewrite nth_middle. assert (K : forall (a b : list nat) (c e : list A), length a = length c -> combine (a ++ b) (c ++ e) = combine a c ++ combine b e).
  { induction a as [|y a IHa]; intros b [|z c] e L; try discriminate; [reflexivity|]. cbn. f_equal. apply IHa. injection L as L. exact L. }
  rewrite K by apply seq_length. f_equal. rewrite IH. apply map_ext_in. intros j J. apply in_seq in J. rewrite app_nth1 by lia. reflexivity.
Qed.
Lemma sum_of_zero_terms {A} (l : list A) f : (forall a, In a l -> f a = zeroop) -> sum_of l f = zeroop.
Proof. intros H. rewrite (sum_of_ext _ _ (fun _ => zeroop) H). apply sum_of_zero. Qed.
Lemma scale_zero A : scaleop (RtoC 0) A = zeroop.
Proof. extensionality psi. extensionality x. unfold scaleop, zeroop. ring. Qed.
Lemma scale_one A : scaleop (RtoC 1) A = A.
Proof. extensionality psi. extensionality x. unfold scaleop. ring. Qed.
Lemma amplitude_den n p ws b rho : amplitude_map n p ws = Some b -> den rho b = sum_of (seq 0 n) (fun j => scaleop (weight_of rho ws j) (gate1 j (prim_mat p))).
Proof.
  destruct ws as [ws|]; cbn [amplitude_map].
  - destruct (Nat.leb_spec (length ws) n) as [L|L]; [|discriminate]. intros H. injection H as <-. rewrite dadd_sum, sum_of_map, (combine_seq_map ws (ECst 0)), sum_of_map. cbn [fst snd].
    replace n with (length ws + (n - length ws))%nat by lia. rewrite seq_app, sum_of_app. cbn [Nat.add].
    rewrite (sum_of_zero_terms (seq (length ws) _)); [|intros j J; apply in_seq in J; cbn [weight_of]; rewrite nth_overflow by lia; apply scale_zero].
    rewrite addop_zero_r. apply sum_of_ext. intros j _. exact (C05_scale rho (BPrim p j) (nth j ws (ECst 0))).
  - intros H. injection H as <-. rewrite dadd_sum, sum_of_map. apply sum_of_ext. intros j _. cbn [weight_of]. rewrite scale_one. reflexivity.
Qed.
Lemma amplitude_some n p ws : (exists b, amplitude_map n p ws = Some b) <-> (forall l, ws = Some l -> (length l <= n)%nat).
Proof.
  destruct ws as [ws|]; cbn [amplitude_map].
  - destruct (Nat.leb_spec (length ws) n) as [L|L]; split.
    + intros _ l H. injection H as <-. exact L.
    + intros _. eexists. reflexivity.
    + intros (b & H). discriminate.
    + intros H. specialize (H ws eq_refl). lia.
  - split; [discriminate|]. intros _. eexists. reflexivity.
Qed.

Section Ansatz.
  Variable set_iter : list nat -> list nat.
  Hypothesis Hs : set_order set_iter.
  Variable is_ham : block -> bool.
  Notation layer := (rydberg_hea_layer set_iter is_ham).
  Notation hea := (rydberg_hea set_iter is_ham).
  Notation interaction r := (hamiltonian_factory set_iter is_ham r (Some INN) None SNone SNone None false).

  Lemma interaction_den r h rho : interaction r = Some h -> den rho h = H_edges r.
  Proof.
    intros H. rewrite (C27_meaning set_iter Hs is_ham _ _ _ _ _ _ _ _ H rho), addop_zero_l. unfold H_edges, sum_over.
    transitivity (sum_of (combine (seq 0 (length (hedges r))) (hedges r)) (fun ke => seqop (N_ (fst (snd ke))) (N_ (snd (snd ke))))).
    - unfold sum_of. generalize (combine (seq 0 (length (hedges r))) (hedges r)). intros l. induction l as [|ke l IH]; [reflexivity|]. cbn [map fold_right]. rewrite IH. f_equal. cbn [weight option_map textbook]. rewrite scale_one. reflexivity.
    - generalize 0%nat. induction (hedges r) as [|e l IH]; intros k; [reflexivity|]. cbn. unfold sum_of in IH. rewrite IH. reflexivity.
  Qed.

  (** A layer does what it documents, for all values of its parameters. *)
  Theorem C69_layer : forall r t_drive t_det t_wait phase detunings drives s b, layer r t_drive t_det t_wait phase detunings drives s = Some b ->
    forall rho, layer_means r (ang rho t_drive) (ang rho t_wait) (ang rho t_det) (option_map (ang rho) phase)
      (fun j => RtoC s * weight_of rho drives j) (weight_of rho detunings) (den rho b).
  Proof.
    intros r td te tw ph de dr s b H rho. unfold rydberg_hea_layer in H. cbv zeta in H.
    destruct (amplitude_map _ PX dr) as [dx|] eqn:E1; [|discriminate H]. cbn [obind] in H. destruct (amplitude_map _ PY dr) as [dy|] eqn:E2; [|discriminate H]. cbn [obind] in H.
    destruct (amplitude_map _ (PN true) de) as [dn|] eqn:E3; [|discriminate H]. cbn [obind] in H. destruct (interaction r) as [h|] eqn:E4; [|discriminate H]. cbn [obind] in H. injection H as <-.
    apply (amplitude_den _ _ _ _ rho) in E1, E2, E3. apply (interaction_den _ _ rho) in E4.
    set (g := match ph with Some p => _ | None => _ end). exists (den rho (BEvo g td)), (den rho (BEvo h tw)), (den rho (BEvo dn te)).
    split; [cbn [den fold_right]; rewrite seqop_id_r; reflexivity|].
    assert (G : den rho g = addop (H_laser (length (hnodes r)) (fun j => RtoC s * weight_of rho dr j) (option_map (ang rho) ph)) (H_edges r)).
    { unfold g. destruct ph as [p|]; rewrite C05_add, E4; f_equal.
      - rewrite C05_sub, !C05_scale, E1, E2, !sum_of_scale, sum_of_add. unfold H_laser. apply sum_of_ext. intros j _. cbn [ev fn_value option_map]. unfold ang, X_, Y_.
        extensionality psi. extensionality x. unfold addop, scaleop. rewrite RtoC_opp. ring.
      - rewrite C05_scale, E1, sum_of_scale. unfold H_laser. apply sum_of_ext. intros j _. cbn [ev option_map]. unfold X_. rewrite scaleop_scale. reflexivity. }
    split; [|split].
    - rewrite <- G. apply evolves_den.
    - rewrite <- E4. apply evolves_den.
    - unfold H_detuning. unfold N_. rewrite <- E3. apply evolves_den.
  Qed.

  Lemma interaction_some r : (exists h, interaction r = Some h) <-> (forall e, In e (hedges r) -> fst e <> snd e).
  Proof.
    rewrite (C27_defined set_iter Hs is_ham r (Some INN) None SNone SNone None false ltac:(discriminate)). split.
    - intros (_ & _ & _ & _ & H) e I. apply H; [discriminate|exact I].
    - intros H. split; [left; discriminate|]. repeat split; try discriminate. intros _ e I. apply H, I.
  Qed.
  (** A layer is refused exactly for too many weights or a register with a loop. *)
  Theorem C69_layer_defined : forall r t_drive t_det t_wait phase detunings drives s,
    (exists b, layer r t_drive t_det t_wait phase detunings drives s = Some b) <->
    (forall ws, drives = Some ws \/ detunings = Some ws -> (length ws <= length (hnodes r))%nat) /\ (forall e, In e (hedges r) -> fst e <> snd e).
  Proof.
    intros r td te tw ph de dr s. rewrite <- interaction_some. unfold rydberg_hea_layer. cbv zeta.
    pose proof (amplitude_some (length (hnodes r)) PX dr) as A1. pose proof (amplitude_some (length (hnodes r)) PY dr) as A2. pose proof (amplitude_some (length (hnodes r)) (PN true) de) as A3. split.
    - intros (b & H). destruct (amplitude_map _ PX dr) as [dx|]; [|discriminate H]. cbn [obind] in H. destruct (amplitude_map _ PY dr) as [dy|]; [|discriminate H]. cbn [obind] in H.
      destruct (amplitude_map _ (PN true) de) as [dn|]; [|discriminate H]. cbn [obind] in H. destruct (interaction r) as [h|]; [|discriminate H].
      split; [|eexists; reflexivity]. intros ws [-> | ->]; [apply (proj1 A1); [eexists; reflexivity|reflexivity]|apply (proj1 A3); [eexists; reflexivity|reflexivity]].
    - intros (Hw & h & Hh). destruct (proj2 A1) as [dx ->]; [intros l ->; apply Hw; left; reflexivity|]. destruct (proj2 A2) as [dy ->]; [intros l ->; apply Hw; left; reflexivity|].
      destruct (proj2 A3) as [dn ->]; [intros l ->; apply Hw; right; reflexivity|]. cbn [obind]. rewrite Hh. cbn [obind]. eexists. reflexivity.
  Qed.

  (** * The whole ansatz *)
  Lemma F2_length {A B} (P : A -> B -> Prop) xs ys : Forall2 P xs ys -> length xs = length ys.
  Proof. induction 1; cbn [length]; congruence. Qed.
  Lemma F2_nth {A B} (P : A -> B -> Prop) xs ys : Forall2 P xs ys -> forall l x y, nth_error xs l = Some x -> nth_error ys l = Some y -> P x y.
  Proof.
    induction 1 as [|a b xs ys H _ IH]; intros l x y X Y; [destruct l; discriminate X|]. destruct l as [|l]; cbn [nth_error] in X, Y; [injection X as <-; injection Y as <-; exact H|exact (IH l x y X Y)].
  Qed.
  Lemma seq_nth_error n l : (l < n)%nat -> nth_error (seq 0 n) l = Some l.
  Proof. intros H. rewrite (nth_error_nth' _ 0%nat) by (rewrite seq_length; exact H). rewrite seq_nth by exact H. reflexivity. Qed.
  Lemma layer_means_ext r a b c ph d d' e e' E : (forall j, (j < length (hnodes r))%nat -> d j = d' j) -> (forall j, (j < length (hnodes r))%nat -> e j = e' j) ->
    layer_means r a b c ph d e E -> layer_means r a b c ph d' e' E.
  Proof.
    intros Hd He (E1 & E2 & E3 & Q & H1 & H2 & H3). exists E1, E2, E3. split; [exact Q|].
    replace (H_laser (length (hnodes r)) d' ph) with (H_laser (length (hnodes r)) d ph) by (apply sum_of_ext; intros j J; apply in_seq in J; rewrite Hd by lia; reflexivity).
    replace (H_detuning (length (hnodes r)) e') with (H_detuning (length (hnodes r)) e) by (apply sum_of_ext; intros j J; apply in_seq in J; rewrite He by lia; reflexivity).
    auto.
  Qed.
  (** The names of the parameters end with the given prefix and the number of the layer. *)
  Definition suffix (p : option string) (l : nat) : string := match p with None => ("_" ++ dec l)%string | Some p => ("_" ++ p ++ "_" ++ dec l)%string end.
  Lemma suffix_eq a p l : (a ++ match p with None => "" | Some q => "_" ++ q end ++ "_" ++ dec l)%string = (a ++ suffix p l)%string.
  Proof. destruct p as [p|]; reflexivity. Qed.

  Lemma var_weight rho a n (on : bool) j : (j < n)%nat ->
    weight_of rho (if on then Some (map (fun j => EVar (a ++ dec j)) (seq 0 n)) else None) j = if on then RtoC (rho (a ++ dec j)%string) else RtoC 1.
  Proof.
    intros J. destruct on; [|reflexivity]. cbn [weight_of]. rewrite (nth_indep _ _ (EVar (a ++ dec 0))) by (rewrite map_length, seq_length; exact J).
    rewrite (map_nth (fun j => EVar (a ++ dec j))), seq_nth by exact J. reflexivity.
  Qed.

  (** The ansatz is a sequence of layers; layer [l] has its own three durations, the weights and the phase are those of all layers. *)
  Theorem C69_hea : forall r n_layers det drive phase p b, hea r n_layers det drive phase p = Some b ->
    forall rho, exists Es, length Es = n_layers /\ den rho b = fold_right seqop idop Es /\
      forall l E, nth_error Es l = Some E ->
        layer_means r (rho ("At" ++ suffix p l)%string) (rho ("wait" ++ suffix p l)%string) (rho ("Omega" ++ suffix p l)%string)
          (if phase then Some (rho "phase"%string) else None)
          (fun j => if drive then RtoC (rho ("drivemap_" ++ dec j)%string) else RtoC 1)
          (fun j => if det then RtoC (rho ("detmap_" ++ dec j)%string) else RtoC 1) E.
  Proof.
    intros r L det drive phase p b H rho. unfold rydberg_hea in H. cbv zeta in H.
    destruct (osequence _) as [bs|] eqn:E; [|discriminate H]. injection H as <-. apply osequence_map_some in E.
    exists (map (den rho) bs). split; [rewrite map_length; rewrite <- (F2_length _ _ _ E); apply seq_length|].
    split. { clear E. cbn [den]. induction bs as [|b bs IH]; [reflexivity|]. cbn [map fold_right]. rewrite <- IH. reflexivity. }
    intros l E' Hn. rewrite nth_error_map in Hn. destruct (nth_error bs l) as [b|] eqn:Hb; [|discriminate Hn]. injection Hn as <-.
    assert (Q : nth_error (seq 0 L) l = Some l). { apply seq_nth_error. rewrite <- (seq_length L 0), (F2_length _ _ _ E). apply nth_error_Some. congruence. }
    assert (K : layer r (EVar ("At" ++ match p with None => "" | Some q => "_" ++ q end ++ "_" ++ dec l)) (EVar ("Omega" ++ match p with None => "" | Some q => "_" ++ q end ++ "_" ++ dec l))
        (EVar ("wait" ++ match p with None => "" | Some q => "_" ++ q end ++ "_" ++ dec l)) (if phase then Some (EVar "phase") else None)
        (if det then Some (map (fun j => EVar ("detmap_" ++ dec j)) (seq 0 (length (hnodes r)))) else None)
        (if drive then Some (map (fun j => EVar ("drivemap_" ++ dec j)) (seq 0 (length (hnodes r)))) else None) 1 = Some b).
    { exact (F2_nth _ _ _ E l l b Q Hb). }
    rewrite !suffix_eq in K. apply C69_layer with (rho := rho) in K. revert K. unfold ang. cbn [ev fst RtoC]. replace (option_map (fun e => fst (ev rho e)) (if phase then Some (EVar "phase") else None)) with (if phase then Some (rho "phase"%string) else None) by (destruct phase; reflexivity).
    apply layer_means_ext; intros j J; rewrite var_weight by exact J; [|reflexivity]. destruct drive; ring.
  Qed.

  (** It is refused exactly for a register with a loop; no layers are always accepted. *)
  Theorem C69_hea_defined : forall r n_layers det drive phase p,
    (exists b, hea r n_layers det drive phase p = Some b) <-> (n_layers <> 0%nat -> forall e, In e (hedges r) -> fst e <> snd e).
  Proof.
    intros r L det drive phase p.
    assert (K : forall a b c, (exists y, layer r a b c (if phase then Some (EVar "phase") else None) (if det then Some (map (fun j => EVar ("detmap_" ++ dec j)) (seq 0 (length (hnodes r)))) else None)
        (if drive then Some (map (fun j => EVar ("drivemap_" ++ dec j)) (seq 0 (length (hnodes r)))) else None) 1 = Some y) <-> forall e, In e (hedges r) -> fst e <> snd e).
    { intros a b c. rewrite C69_layer_defined. split; [tauto|]. intros H. split; [|exact H]. intros ws [Q|Q]; [destruct drive|destruct det]; try discriminate Q; injection Q as <-; rewrite map_length, seq_length; lia. }
    unfold rydberg_hea. cbv zeta. split.
    - intros (b & H) N. destruct (osequence _) as [bs|] eqn:E; [|discriminate H]. apply osequence_map_some in E. destruct L as [|L]; [congruence|]. cbn [seq] in E. inversion E as [|x y xs ys Hx _ Q1 Q2]. subst. eapply (proj1 (K _ _ _)). exists y. exact Hx.
    - intros H. match goal with |- exists b, option_map _ (osequence (map ?f ?l)) = _ => assert (Z : exists bs, osequence (map f l) = Some bs) end.
      { destruct L as [|L]; [exists []; reflexivity|]. specialize (H ltac:(discriminate)). generalize (seq 0 (S L)). intros ls. induction ls as [|x ls [bs IH]]; [exists []; reflexivity|]. cbn [map osequence]. rewrite IH.
        destruct (proj2 (K (EVar ("At" ++ match p with None => "" | Some q => "_" ++ q end ++ "_" ++ dec x)) (EVar ("Omega" ++ match p with None => "" | Some q => "_" ++ q end ++ "_" ++ dec x)) (EVar ("wait" ++ match p with None => "" | Some q => "_" ++ q end ++ "_" ++ dec x))) H) as [y Hy].
        rewrite Hy. eexists. reflexivity. }
      destruct Z as [bs Z]. rewrite Z. eexists. reflexivity.
  Qed.

  (** ** The parameters *)
  Definition expected (n n_layers : nat) (det drive phase : bool) (p : option string) : list string :=
    flat_map (fun l => ["At" ++ suffix p l; "Omega" ++ suffix p l; "wait" ++ suffix p l]%string) (seq 0 n_layers) ++
    (if det then map (fun j => "detmap_" ++ dec j)%string (seq 0 n) else []) ++
    (if drive then map (fun j => "drivemap_" ++ dec j)%string (seq 0 n) else []) ++
    (if phase then ["phase"%string] else []).

  Lemma interaction_params r h : interaction r = Some h -> bparams h = [] /\ is_zero h = false.
  Proof.
    unfold hamiltonian_factory. cbn [int_fn option_map obind preprocess_strengths app]. destruct (osequence _) as [ps|] eqn:E; [|discriminate]. cbn [obind]. intros H. injection H as <-. split; [|reflexivity].
    apply osequence_map_some in E. cbn [bparams].
    assert (W : forall x, In x (combine (map (fun _ : nat => ECst (RtoC 1)) (seq 0 (length (hedges r)))) (hedges r)) -> fst x = ECst (RtoC 1)).
    { intros [w e] I. apply in_combine_l in I. apply in_map_iff in I as (_ & <- & _). reflexivity. }
    induction E as [|x y xs ys Hx _ IH]; [reflexivity|]. cbn [flat_map]. rewrite IH by (intros z I; apply W; right; exact I). rewrite app_nil_r. clear IH.
    unfold interaction_nn in Hx. rewrite (two_some set_iter Hs) in Hx. destruct (Nat.eqb _ _); [discriminate Hx|]. cbn [option_map op_scale] in Hx. injection Hx as <-. rewrite (W x (or_introl eq_refl)). reflexivity.
  Qed.
  Definition names_of (ws : option (list expr)) : list string := match ws with None => [] | Some l => flat_map vars l end.
  Lemma amplitude_params n p ws b : p <> PZero -> amplitude_map n p ws = Some b -> bparams b = names_of ws /\ exists bs, b = BAdd bs.
  Proof.
    intros P. destruct ws as [ws|]; cbn [amplitude_map names_of].
    - destruct (Nat.leb (length ws) n); [|discriminate]. intros H. injection H as <-. split; [|eexists; reflexivity]. cbn [bparams]. generalize 0%nat. induction ws as [|w ws IH]; intros k; [reflexivity|].
      cbn [length seq combine map flat_map fst snd]. rewrite IH. f_equal. unfold op_scale. destruct p; try congruence; cbn [bparams]; apply app_nil_r.
    - intros H. injection H as <-. split; [|eexists; reflexivity]. cbn [bparams]. generalize 0%nat. induction n as [|n IH]; intros k; [reflexivity|]. cbn [seq map flat_map bparams]. apply IH.
  Qed.
  Lemma layer_params r a b c ph de dr s y x : layer r a b c ph de dr s = Some y ->
    In x (bparams y) <-> In x (vars a) \/ In x (vars b) \/ In x (vars c) \/ In x (match ph with Some p => vars p | None => [] end) \/ In x (names_of de) \/ In x (names_of dr).
  Proof.
    unfold rydberg_hea_layer. cbv zeta. destruct (amplitude_map _ PX dr) as [dx|] eqn:E1; [|discriminate]. cbn [obind]. destruct (amplitude_map _ PY dr) as [dy|] eqn:E2; [|discriminate]. cbn [obind].
    destruct (amplitude_map _ (PN true) de) as [dn|] eqn:E3; [|discriminate]. cbn [obind]. destruct (interaction r) as [h|] eqn:E4; [|discriminate]. cbn [obind].
    apply amplitude_params in E1 as [E1 [b1 ->]]; [|discriminate]. apply amplitude_params in E2 as [E2 [b2 ->]]; [|discriminate]. apply amplitude_params in E3 as [E3 [b3 ->]]; [|discriminate]. apply interaction_params in E4 as [E4 _].
    intros H. injection H as <-. cbn [bparams] in E1, E2, E3. destruct ph as [ph|]; cbn [op_scale op_sub op_add is_zero bparams flat_map vars app]; rewrite ?E1, ?E2, ?E3, ?E4, ?app_nil_r; repeat rewrite in_app_iff; cbn [In]; tauto.
  Qed.
  Lemma vars_names a n : flat_map vars (map (fun j => EVar (a ++ dec j)) (seq 0 n)) = map (fun j => a ++ dec j)%string (seq 0 n).
  Proof. generalize 0%nat. induction n as [|n IH]; intros k; [reflexivity|]. cbn [seq map flat_map vars app]. rewrite IH. reflexivity. Qed.
  Lemma suffix_inj p l l' : suffix p l = suffix p l' -> l = l'.
  Proof.
    destruct p as [p|]; unfold suffix; intros H.
    - apply (append_inj "_") in H. apply (append_inj p), (append_inj "_") in H. apply dec_inj, H.
    - apply (append_inj "_") in H. apply dec_inj, H.
  Qed.
  (** With at least one layer the parameters are the three durations of each layer, the weights that are asked for, shared by all layers, and
      the phase; their names are all different. *)
  Theorem C69_names : forall r n_layers det drive phase p b, hea r n_layers det drive phase p = Some b -> n_layers <> 0%nat ->
    (forall s, In s (bparams b) <-> In s (expected (length (hnodes r)) n_layers det drive phase p)) /\
    NoDup (expected (length (hnodes r)) n_layers det drive phase p) /\
    length (expected (length (hnodes r)) n_layers det drive phase p) =
      (3 * n_layers + (if det then length (hnodes r) else 0) + (if drive then length (hnodes r) else 0) + (if phase then 1 else 0))%nat.
  Proof.
    intros r L det drive phase p b H N. split; [|split].
    - intros s. unfold rydberg_hea in H. cbv zeta in H. destruct (osequence _) as [bs|] eqn:E; [|discriminate H]. injection H as <-. apply osequence_map_some in E. cbn [bparams]. rewrite in_flat_map.
      unfold expected. rewrite !in_app_iff, in_flat_map.
      assert (Q : forall y, (exists l, In l (seq 0 L) /\ layer r (EVar ("At" ++ match p with None => "" | Some q => "_" ++ q end ++ "_" ++ dec l)) (EVar ("Omega" ++ match p with None => "" | Some q => "_" ++ q end ++ "_" ++ dec l))
        (EVar ("wait" ++ match p with None => "" | Some q => "_" ++ q end ++ "_" ++ dec l)) (if phase then Some (EVar "phase") else None)
        (if det then Some (map (fun j => EVar ("detmap_" ++ dec j)) (seq 0 (length (hnodes r)))) else None)
        (if drive then Some (map (fun j => EVar ("drivemap_" ++ dec j)) (seq 0 (length (hnodes r)))) else None) 1 = Some y) <-> In y bs).
      { clear - E. intros y. induction E as [|x z xs zs Hx _ IH]; cbn [In]; [split; [intros (l & [] & _)|intros []]|]. rewrite <- IH. split.
        - intros (l & [<-|I] & K); [left; congruence|right; exists l; tauto].
        - intros [<-|(l & I & K)]; [exists x; tauto|exists l; tauto]. }
      assert (P : forall l y, layer r (EVar ("At" ++ match p with None => "" | Some q => "_" ++ q end ++ "_" ++ dec l)) (EVar ("Omega" ++ match p with None => "" | Some q => "_" ++ q end ++ "_" ++ dec l))
        (EVar ("wait" ++ match p with None => "" | Some q => "_" ++ q end ++ "_" ++ dec l)) (if phase then Some (EVar "phase") else None)
        (if det then Some (map (fun j => EVar ("detmap_" ++ dec j)) (seq 0 (length (hnodes r)))) else None)
        (if drive then Some (map (fun j => EVar ("drivemap_" ++ dec j)) (seq 0 (length (hnodes r)))) else None) 1 = Some y ->
        In s (bparams y) <-> In s ["At" ++ suffix p l; "Omega" ++ suffix p l; "wait" ++ suffix p l]%string \/
          (In s (if det then map (fun j => "detmap_" ++ dec j)%string (seq 0 (length (hnodes r))) else []) \/ In s (if drive then map (fun j => "drivemap_" ++ dec j)%string (seq 0 (length (hnodes r))) else []) \/ In s (if phase then ["phase"%string] else []))).
      { intros l y Hy. rewrite (layer_params _ _ _ _ _ _ _ _ _ s Hy). rewrite !suffix_eq. cbn [vars].
        replace (names_of (if det then _ else None)) with (if det then map (fun j => "detmap_" ++ dec j)%string (seq 0 (length (hnodes r))) else []) by (destruct det; [symmetry; apply vars_names|reflexivity]).
        replace (names_of (if drive then _ else None)) with (if drive then map (fun j => "drivemap_" ++ dec j)%string (seq 0 (length (hnodes r))) else []) by (destruct drive; [symmetry; apply vars_names|reflexivity]).
        replace (match (if phase then Some (EVar "phase") else None) with Some q => vars q | None => [] end) with (if phase then ["phase"%string] else []) by (destruct phase; reflexivity).
        cbn [In]. tauto. }
      split.
      + intros (y & I & K). apply Q in I as (l & I & Hy). apply (P l y Hy) in K as [K|K]; [left; exists l; tauto|right; exact K].
      + assert (Y : forall l, In l (seq 0 L) -> exists y, In y bs /\ layer r (EVar ("At" ++ match p with None => "" | Some q => "_" ++ q end ++ "_" ++ dec l)) (EVar ("Omega" ++ match p with None => "" | Some q => "_" ++ q end ++ "_" ++ dec l))
        (EVar ("wait" ++ match p with None => "" | Some q => "_" ++ q end ++ "_" ++ dec l)) (if phase then Some (EVar "phase") else None)
        (if det then Some (map (fun j => EVar ("detmap_" ++ dec j)) (seq 0 (length (hnodes r)))) else None)
        (if drive then Some (map (fun j => EVar ("drivemap_" ++ dec j)) (seq 0 (length (hnodes r)))) else None) 1 = Some y).
        { clear - E. intros l. induction E as [|x z xs zs Hx _ IH]; intros I; [destruct I|]. destruct I as [<-|I]; [exists z; split; [left; reflexivity|exact Hx]|]. destruct (IH I) as (y & J & K). exists y. split; [right; exact J|exact K]. }
        intros [(l & I & K)|K].
        * destruct (Y l I) as (y & J & Hy). exists y. split; [exact J|]. apply (P l y Hy). left. exact K.
        * destruct (Y 0%nat) as (y & J & Hy); [apply in_seq; lia|]. exists y. split; [exact J|]. apply (P 0%nat y Hy). right. exact K.
    - assert (D : forall a n, NoDup (map (fun j => a ++ dec j)%string (seq 0 n))).
      { intros a n. apply FinFun.Injective_map_NoDup; [intros i j Q; apply append_inj in Q; apply dec_inj, Q|apply seq_NoDup]. }
      assert (S3 : forall l s, In s ["At" ++ suffix p l; "Omega" ++ suffix p l; "wait" ++ suffix p l]%string -> exists c t, s = String c t /\ (c = "A"%char \/ c = "O"%char \/ c = "w"%char)).
      { intros l s [<-|[<-|[<-|[]]]]; cbn [append]; eexists; eexists; (split; [reflexivity|tauto]). }
      unfold expected. apply NoDup_app_intro.
      + generalize (seq_NoDup L 0). generalize (seq 0 L). intros ls. induction ls as [|l ls IH]; intros Nd; [constructor|]. inversion Nd as [|? ? Nl Nd']. subst. cbn [flat_map]. apply NoDup_app_intro; [|apply IH, Nd'|].
        * repeat constructor; cbn [In append]; intros K; repeat destruct K as [K|K]; discriminate K || exact K.
        * intros s I J. apply in_flat_map in J as (l' & J & K). apply Nl. replace l with l'; [exact J|]. cbn [In] in I, K.
          destruct I as [<-|[<-|[<-|[]]]], K as [K|[K|[K|[]]]]; try discriminate K; apply append_inj in K; exact (suffix_inj _ _ _ K).
      + apply NoDup_app_intro; [destruct det; [apply D|constructor]| |].
        * apply NoDup_app_intro; [destruct drive; [apply D|constructor]|destruct phase; repeat constructor; intros []|]. intros s I J. destruct drive, phase; try destruct I; try destruct J as [<-|[]]; try destruct J. apply in_map_iff in I as (j & Q & _). discriminate Q.
        * intros s I J. destruct det; [|destruct I]. apply in_map_iff in I as (j & <- & _). apply in_app_iff in J as [J|J]; [destruct drive; [|destruct J]; apply in_map_iff in J as (k & Q & _); discriminate Q|destruct phase; [|destruct J]; destruct J as [Q|[]]; discriminate Q].
      + intros s I J. apply in_flat_map in I as (l & _ & I). apply S3 in I as (c & t & -> & Hc). apply in_app_iff in J as [J|J]; [|apply in_app_iff in J as [J|J]].
        * destruct det; [|destruct J]. apply in_map_iff in J as (j & Q & _). injection Q as Q _. destruct Hc as [Z|[Z|Z]]; congruence.
        * destruct drive; [|destruct J]. apply in_map_iff in J as (j & Q & _). injection Q as Q _. destruct Hc as [Z|[Z|Z]]; congruence.
        * destruct phase; [|destruct J]. destruct J as [Q|[]]. injection Q as Q _. destruct Hc as [Z|[Z|Z]]; congruence.
    - unfold expected. rewrite !app_length.
      assert (Z : forall ls : list nat, length (flat_map (fun l => ["At" ++ suffix p l; "Omega" ++ suffix p l; "wait" ++ suffix p l]%string) ls) = (3 * length ls)%nat) by (induction ls as [|l ls IH]; [reflexivity|]; cbn [flat_map]; rewrite app_length, IH; cbn [length]; lia).
      rewrite Z, seq_length. destruct det, drive, phase; rewrite ?map_length, ?seq_length; cbn [length]; lia.
  Qed.

  (** ** The diagonal part of a layer *)
  Lemma sum_rdiag {A} (l : list A) (F : A -> asg -> R) : sum_of l (fun a => rdiag (F a)) = rdiag (fun x => M_PSR.rsum (map (fun a => F a x) l)).
  Proof. induction l as [|a l IH]; [symmetry; apply rdiag_zero|]. cbn [sum_of fold_right]. fold (sum_of l (fun a => rdiag (F a))). rewrite IH, rdiag_add. apply rdiag_ext. intros x. reflexivity. Qed.
  Lemma edges_rdiag r : H_edges r = rdiag (fun x => M_PSR.rsum (map (fun e => b2r (x (fst e)) * b2r (x (snd e)))%R (hedges r))).
  Proof. unfold H_edges. rewrite <- sum_rdiag. apply sum_of_ext. intros e _. unfold N_. rewrite !n_rdiag, rdiag_seq. reflexivity. Qed.
  Lemma detuning_rdiag n (w : nat -> R) : H_detuning n (fun j => RtoC (w j)) = rdiag (fun x => M_PSR.rsum (map (fun j => w j * b2r (x j))%R (seq 0 n))).
  Proof. unfold H_detuning. rewrite <- sum_rdiag. apply sum_of_ext. intros j _. unfold N_. rewrite n_rdiag, rdiag_scale. reflexivity. Qed.
  Lemma edges_loc r fs : (forall e, In e (hedges r) -> In (fst e) fs /\ In (snd e) fs) -> loc (inl fs) (H_edges r).
  Proof. intros H. apply loc_sum. intros e I. apply H in I as [I1 I2]. apply loc_seq; apply loc_1; assumption. Qed.
  Lemma detuning_loc n w fs : (forall j, (j < n)%nat -> In j fs) -> loc (inl fs) (H_detuning n w).
  Proof. intros H. apply loc_sum. intros j I. apply in_seq in I. apply loc_scale, loc_1, H. lia. Qed.

  (** The waiting and the detuning of a layer only change phases: that of a basis state by the excited edges and the weights of
      the excited atoms; their order does not matter. *)
  Theorem C69_diagonal : forall r t_wait t_det (w : nat -> R) E2 E3,
    evolves (H_edges r) t_wait E2 -> evolves (H_detuning (length (hnodes r)) (fun j => RtoC (w j))) t_det E3 ->
    E2 = diag (fun x => - (t_wait * M_PSR.rsum (map (fun e => b2r (x (fst e)) * b2r (x (snd e))) (hedges r))))%R /\
    E3 = diag (fun x => - (t_det * M_PSR.rsum (map (fun j => w j * b2r (x j)) (seq 0 (length (hnodes r))))))%R /\
    seqop E2 E3 = seqop E3 E2.
  Proof.
    intros r tw te w E2 E3 H2 H3.
    assert (Q2 : E2 = diag (fun x => - (tw * M_PSR.rsum (map (fun e => b2r (x (fst e)) * b2r (x (snd e))) (hedges r))))%R).
    { set (fs := nodup Nat.eq_dec (map fst (hedges r) ++ map snd (hedges r))).
      assert (L : loc (inl fs) (H_edges r)) by (apply edges_loc; intros e I; split; apply nodup_In, in_app_iff; [left|right]; apply in_map; exact I).
      rewrite edges_rdiag in L, H2. exact (evolves_diag _ _ _ fs (NoDup_nodup _ _) L H2). }
    assert (Q3 : E3 = diag (fun x => - (te * M_PSR.rsum (map (fun j => w j * b2r (x j)) (seq 0 (length (hnodes r))))))%R).
    { assert (L : loc (inl (seq 0 (length (hnodes r)))) (H_detuning (length (hnodes r)) (fun j => RtoC (w j)))) by (apply detuning_loc; intros j J; apply in_seq; lia).
      rewrite detuning_rdiag in L, H3. exact (evolves_diag _ _ _ _ (seq_NoDup _ _) L H3). }
    split; [exact Q2|]. split; [exact Q3|]. rewrite Q2, Q3, !diag_seq. apply diag_ext. intros x. ring.
  Qed.

  (** "additional_prefix: an additional prefix to attach to the parameter names": the weights of two ansatzes with different prefixes are
      the same parameters. *)
  Theorem C69_prefix_refuted : exists r b b', hea r 1 true false false (Some "a"%string) = Some b /\ hea r 1 true false false (Some "b"%string) = Some b' /\
    exists s, In s (bparams b) /\ In s (bparams b').
  Proof.
    set (r := HReg [0%nat] []). assert (D : forall p, exists b, hea r 1 true false false p = Some b) by (intros p; apply C69_hea_defined; intros _ e []).
    destruct (D (Some "a"%string)) as [b E], (D (Some "b"%string)) as [b' E']. exists r, b, b'. split; [exact E|]. split; [exact E'|]. exists "detmap_0"%string.
    split; [apply (proj1 (C69_names _ _ _ _ _ _ _ E ltac:(discriminate)))|apply (proj1 (C69_names _ _ _ _ _ _ _ E' ltac:(discriminate)))]; unfold expected; apply in_app_iff; right; left; reflexivity.
  Qed.
End Ansatz.

(** "an interaction term given by the standard NN interaction and determined starting from the positions in the input register:
    sum of C6/r^6 n_i n_j": the positions are not used.  Whatever the constant, there is a register (two atoms joined by an edge, at a
    suitable distance) whose interaction is another one. *)
Theorem C69_interaction_refuted : forall c, exists x : R, (0 < x)%R /\
  H_edges (HReg [0%nat; 1%nat] [(0%nat, 1%nat)]) <> H_int NN c [(0%nat, (0, 0)%R); (1%nat, (x, 0)%R)].
Proof.
  intros c. set (x := if Req_EM_T c 1 then 2%R else 1%R). assert (X : (0 < x)%R) by (unfold x; destruct (Req_EM_T c 1); lra). exists x. split; [exact X|]. intros H.
  rewrite edges_rdiag in H. unfold H_int, sum_of in H. cbn [fold_right fst snd Nat.ltb Nat.leb] in H. unfold pair_term in H. cbv zeta in H. cbn [fst snd] in H. unfold N_ in H. rewrite !n_rdiag, rdiag_seq in H.
  apply (f_equal (fun O : Op => fst (O (fun _ => RtoC 1) (fun _ => true)))) in H. unfold rdiag, addop, scaleop, zeroop in H. cbn [hedges map M_PSR.rsum fst snd] in H. unfold b2r in H.
  unfold M_Register.dist in H. cbn [fst snd] in H. replace ((0 - x) ^ 2 + (0 - 0) ^ 2)%R with (Rsqr x) in H by (unfold Rsqr; ring). rewrite sqrt_Rsqr in H by lra.
  assert (K : (c / x ^ 6 = 1)%R). { simpl in H. field_simplify in H; [|lra..]. field_simplify; [|lra]. lra. }
  unfold x in K. destruct (Req_EM_T c 1) as [Q|Q]; [subst c|]; lra.
Qed.

(** * The feature map *)
(** The weight of qubit [i]: given, or the value of its trainable parameter. *)
Definition fm_weight (weights : option (list R)) (w : nat -> R) (i : nat) : R := match weights with None => w i | Some ws => nth i ws 0%R end.
Definition fm_total (n : nat) (weights : option (list R)) (w : nat -> R) : R := M_PSR.rsum (map (fm_weight weights w) (seq 0 n)).
Definition fm_rotation (n : nat) (M : R) (weights : option (list R)) (w : nat -> R) (x : R) (i : nat) : tree :=
  TRot (1000 * (x * fm_total n weights w / M)) 0 (- (M * fm_weight weights w i / fm_total n weights w)) 0 (SLocal [i]) true.

Lemma weights_val n weights w cs : match weights with None => Some (map w (seq 0 n)) | Some ws => osequence (map (nth_error ws) (seq 0 n)) end = Some cs ->
  cs = map (fm_weight weights w) (seq 0 n) /\ forall ws, weights = Some ws -> (n <= length ws)%nat.
Proof.
  destruct weights as [ws|]; [|intros H; injection H as <-; split; [reflexivity|discriminate]]. intros H. apply osequence_map_some in H. split.
  - revert H. unfold fm_weight. generalize (seq 0 n). intros l H. induction H as [|i c l cs Hi _ IH]; [reflexivity|]. cbn [map]. rewrite IH. f_equal. symmetry. apply nth_error_nth, Hi.
  - intros ws' Q. injection Q as <-. destruct n as [|n]; [lia|]. assert (K : In n (seq 0 (S n))) by (apply in_seq; lia). revert K H. generalize (seq 0 (S n)). intros l K H.
    induction H as [|i c l cs Hi _ IH]; [destruct K|]. destruct K as [->|K]; [|exact (IH K)]. assert (n < length ws)%nat by (apply nth_error_Some; congruence). lia.
Qed.
Lemma weights_some n ws : (n <= length ws)%nat -> osequence (map (nth_error ws) (seq 0 n)) = Some (map (fm_weight (Some ws) (fun _ => 0%R)) (seq 0 n)).
Proof.
  intros L. assert (K : forall l, (forall i, In i l -> (i < length ws)%nat) -> osequence (map (nth_error ws) l) = Some (map (fm_weight (Some ws) (fun _ => 0%R)) l)).
  { induction l as [|i l IH]; intros H; [reflexivity|]. cbn [map osequence]. rewrite (nth_error_nth' ws 0%R) by (apply H; left; reflexivity). rewrite IH by (intros j J; apply H; right; exact J). reflexivity. }
  apply K. intros i I. apply in_seq in I. lia.
Qed.
Lemma combine_map_self {A} (f : nat -> A) l : combine l (map f l) = map (fun i => (i, f i)) l.
Proof. induction l as [|i l IH]; [reflexivity|]. cbn [map combine]. rewrite IH. reflexivity. Qed.
Lemma osequence_all_some {A B} (f : A -> option B) (g : A -> B) l : (forall a, In a l -> f a = Some (g a)) -> osequence (map f l) = Some (map g l).
Proof. induction l as [|a l IH]; intros H; [reflexivity|]. cbn [map osequence]. rewrite (H a) by (left; reflexivity). rewrite IH by (intros b I; apply H; right; exact I). reflexivity. Qed.

(** The feature map drives every qubit with its own detuning -M W_i / S for the time x S / M (in microseconds), S the sum of the weights. *)
Theorem C69_feature_rotations : forall n M weights w x t, rydberg_feature_map n M weights w x = Some t -> t = TKron (map (fm_rotation n M weights w x) (seq 0 n)).
Proof.
  intros n M weights w x t H. unfold rydberg_feature_map in H.
  destruct (match weights with None => _ | Some ws => _ end) as [cs|] eqn:E; [|discriminate H]. apply weights_val in E as [-> _]. cbn [obind] in H. fold (fm_total n weights w) in H. cbv zeta in H.
  destruct (Req_EM_T (fm_total n weights w) 0) as [Z|Z]; [discriminate H|]. destruct (Req_EM_T M 0) as [Z'|Z']; [discriminate H|].
  rewrite combine_map_self, map_map in H. cbn [fst snd] in H. destruct (osequence _) as [rs|] eqn:E; [|discriminate H]. cbn [obind] in H.
  assert (Q : rs = map (fm_rotation n M weights w x) (seq 0 n)).
  { clear H. apply osequence_map_some in E. revert E. generalize (seq 0 n). intros l E. induction E as [|i r l rs Hi _ IH]; [reflexivity|]. cbn [map]. rewrite IH. f_equal. clear IH.
    assert (T : (1000 * x / (M / fm_total n weights w) = 1000 * (x * fm_total n weights w / M))%R) by (field; split; assumption).
    assert (D : (- (M / fm_total n weights w) * fm_weight weights w i = - (M * fm_weight weights w i / fm_total n weights w))%R) by (field; assumption).
    rewrite T, D in Hi. unfold fm_rotation. destruct weights as [ws|]; [|injection Hi as <-; reflexivity]. unfold AnalogRot in Hi. destruct (Req_EM_T 0 0) as [_|C]; [|congruence]. destruct (Req_EM_T _ 0); [discriminate Hi|]. injection Hi as <-. reflexivity. }
  subst rs. destruct (map _ (seq 0 n)); [discriminate H|]. injection H as <-. reflexivity.
Qed.
(** It is refused exactly for no qubits, too few weights, a zero among the given weights, weights that sum to zero, or a maximal detuning of zero. *)
Theorem C69_feature_defined : forall n M weights w x,
  (exists t, rydberg_feature_map n M weights w x = Some t) <->
  n <> 0%nat /\ M <> 0%R /\ fm_total n weights w <> 0%R /\ forall ws, weights = Some ws -> (n <= length ws)%nat /\ forall i, (i < n)%nat -> nth i ws 0%R <> 0%R.
Proof.
  intros n M weights w x. split.
  - intros (t & H). pose proof (C69_feature_rotations _ _ _ _ _ _ H) as Q. unfold rydberg_feature_map in H.
    destruct (match weights with None => _ | Some ws => _ end) as [cs|] eqn:E; [|discriminate H]. apply weights_val in E as [-> L]. cbn [obind] in H. fold (fm_total n weights w) in H. cbv zeta in H.
    destruct (Req_EM_T (fm_total n weights w) 0) as [Z|Z]; [discriminate H|]. destruct (Req_EM_T M 0) as [Z'|Z']; [discriminate H|].
    split. { intros ->. cbn in H. discriminate H. } split; [exact Z'|]. split; [exact Z|]. intros ws Hw. split; [exact (L ws Hw)|]. intros i Hi K. subst weights.
    rewrite combine_map_self, map_map in H. cbn [fst snd] in H. destruct (osequence _) as [rs|] eqn:E; [|discriminate H]. apply osequence_map_some in E. clear H Q.
    assert (J : In i (seq 0 n)) by (apply in_seq; lia). revert J E. generalize (seq 0 n). intros l J E. induction E as [|j r l rs Hj _ IH]; [destruct J|]. destruct J as [->|J]; [|exact (IH J)].
    unfold AnalogRot in Hj. destruct (Req_EM_T 0 0) as [_|C]; [|congruence]. destruct (Req_EM_T _ 0) as [_|C]; [discriminate Hj|]. apply C. unfold fm_weight. rewrite K. ring.
  - intros (N & HM & HS & Hw). exists (TKron (map (fm_rotation n M weights w x) (seq 0 n))). unfold rydberg_feature_map.
    assert (E : match weights with None => Some (map w (seq 0 n)) | Some ws => osequence (map (nth_error ws) (seq 0 n)) end = Some (map (fm_weight weights w) (seq 0 n))).
    { destruct weights as [ws|]; [|reflexivity]. rewrite (weights_some n ws) by (apply (Hw ws eq_refl)). reflexivity. }
    rewrite E. cbn [obind]. fold (fm_total n weights w). cbv zeta. destruct (Req_EM_T (fm_total n weights w) 0); [contradiction|]. destruct (Req_EM_T M 0); [contradiction|].
    rewrite combine_map_self, map_map. cbn [fst snd]. rewrite (osequence_all_some _ (fm_rotation n M weights w x)).
    + cbn [obind]. destruct n as [|n']; [congruence|]. reflexivity.
    + intros i I. apply in_seq in I. unfold fm_rotation.
      assert (T : (1000 * x / (M / fm_total n weights w) = 1000 * (x * fm_total n weights w / M))%R) by (field; split; assumption).
      assert (D : (- (M / fm_total n weights w) * fm_weight weights w i = - (M * fm_weight weights w i / fm_total n weights w))%R) by (field; assumption).
      rewrite T, D. destruct weights as [ws|]; [|reflexivity]. unfold AnalogRot. destruct (Req_EM_T 0 0) as [_|C]; [|congruence]. destruct (Req_EM_T _ 0) as [Z|Z]; [|reflexivity]. exfalso.
      apply (proj2 (Hw ws eq_refl) i); [lia|]. apply (Rmult_eq_reg_l (- (M / fm_total n (Some ws) w))%R); [|apply Ropp_neq_0_compat; unfold Rdiv; apply Rmult_integral_contrapositive_currified; [exact HM|apply Rinv_neq_0_compat; exact HS]].
      rewrite Rmult_0_r. etransitivity; [|exact Z]. unfold fm_weight. field. exact HS.
Qed.

(** ** What it does to the state *)
(** The energy of a basis state under the interaction. *)
Definition energy (c : R) (r : M_Register.register) (x : asg) : R :=
  M_PSR.rsum (map (fun a => M_PSR.rsum (map (fun b =>
    if Nat.ltb (fst a) (fst b) then (c / M_Register.dist (snd a) (snd b) ^ 6 * (b2r (x (fst a)) * b2r (x (fst b))))%R else 0%R) r)) r).
Lemma int_rdiag c r : H_int NN c r = rdiag (energy c r).
Proof.
  unfold H_int, energy. rewrite <- sum_rdiag. apply sum_of_ext. intros a _. rewrite <- sum_rdiag. apply sum_of_ext. intros b _.
  destruct (Nat.ltb (fst a) (fst b)); [|symmetry; apply rdiag_zero]. unfold pair_term, N_. cbv zeta. rewrite !n_rdiag, rdiag_seq, rdiag_scale. reflexivity.
Qed.
Lemma local_detuning_rdiag de q : H_drive 0 de 0 [q] = rdiag (fun x => - de * b2r (x q))%R.
Proof.
  unfold H_drive, sum_of. cbn [fold_right]. unfold N_. rewrite n_rdiag, rdiag_scale. extensionality psi. extensionality x. unfold addop, scaleop, rdiag, zeroop. replace (0 / 2)%R with 0%R by field.
  rewrite !Rmult_0_l, Ropp_0. ring.
Qed.
Section Feature.
  Variable set_iter : list nat -> list nat.
  Hypothesis Hs : set_order set_iter.
  Variable is_ham : block -> bool.
  Variable c6_dict : nat -> option R.

  (** The rotations have disjoint supports and the same duration, so they pass the checks of the analog kron. *)
  Theorem C69_feature_kron : forall n M weights w x t, rydberg_feature_map n M weights w x = Some t ->
    rebuild_kron set_iter t = Some (TAKron (map (fm_rotation n M weights w x) (seq 0 n))).
  Proof.
    intros n M weights w x t H. assert (N : n <> 0%nat) by (apply (C69_feature_defined n M weights w x); exists t; exact H). rewrite (C69_feature_rotations _ _ _ _ _ _ H). unfold rebuild_kron.
    replace (forallb _ _) with true by (symmetry; apply forallb_forall; intros b I; apply in_map_iff in I as (i & <- & _); reflexivity).
    assert (K : exists b, M_Analog.mk_kron set_iter (map leaf (map (fm_rotation n M weights w x) (seq 0 n))) = Some b); [|destruct K as [b ->]; reflexivity].
    apply (P_Analog.C43_kron set_iter _ Hs). destruct n as [|n]; [congruence|]. rewrite map_map. set (g := fun i => leaf (fm_rotation (S n) M weights w x i)).
    exists (g 0%nat), (map g (seq 1 n)), (map (fun i => [i]) (seq 0 (S n))). split; [reflexivity|]. split; [|split].
    - generalize (seq 0 (S n)). intros l. induction l as [|i l IH]; [constructor|]. constructor; [reflexivity|exact IH].
    - generalize (seq_NoDup (S n) 0). generalize (seq 0 (S n)). intros l Nd. induction Nd as [|i l Ni Nd IH]; [exact I|]. split; [|exact IH]. intros m J q [<-|[]] Q. apply in_map_iff in J as (k & <- & J). destruct Q as [->|[]]. exact (Ni J).
    - intros y I. apply in_map_iff in I as (i & <- & _). unfold P_Analog.close_to. cbn [M_Analog.duration g leaf fm_rotation]. rewrite Rminus_eq_0, Rabs_R0. pose proof (Rabs_pos (1000 * (x * fm_total (S n) weights w / M))). nra.
  Qed.

  (** Only a kron of analog parts alone is rebuilt: any other tree is left as it is. *)
  Theorem C69_rebuild_other : forall t, ~ (exists bs, t = TKron bs /\ forall b, In b bs -> (exists d s f, b = TInt d s f) \/ (exists d w dl ph s f, b = TRot d w dl ph s f)) -> rebuild_kron set_iter t = Some t.
  Proof.
    intros t H. destruct t; try reflexivity. cbn [rebuild_kron]. destruct (forallb _ _) eqn:E; [exfalso; apply H|reflexivity]. eexists. split; [reflexivity|].
    rewrite forallb_forall in E. intros b I. specialize (E b I). destruct b; try discriminate E; [left|right]; repeat eexists.
  Qed.

  (** On a device with van der Waals interaction the feature map gives the phase - x W_i to every excited atom [i], but also lets the
      atoms interact for the whole sequence, n times x S / M. *)
  Theorem C69_feature_effect : forall n M weights w x t t' d r c b, rydberg_feature_map n M weights w x = Some t -> rebuild_kron set_iter t = Some t' ->
    d_coupling d = NN -> d_pattern d = None -> c6_dict (d_level d) = Some c -> NoDup (map fst r) ->
    add_background_hamiltonian set_iter is_ham c6_dict (Some d) r t' = Some (Translated b) -> forall rho,
    den rho b = diag (fun s => - (INR n * (x * fm_total n weights w / M) * energy c r s) - x * M_PSR.rsum (map (fun i => fm_weight weights w i * b2r (s i)) (seq 0 n)))%R.
  Proof.
    intros n M weights w x t t' d r c b H Ht HN HP Hc Nd Hb rho. rewrite (C69_feature_kron _ _ _ _ _ _ H) in Ht. injection Ht as <-.
    assert (D : n <> 0%nat /\ M <> 0%R /\ fm_total n weights w <> 0%R) by (destruct (proj1 (C69_feature_defined n M weights w x) (ex_intro _ t H)) as (A & B & C' & _); auto). destruct D as (_ & HM & HS). clear H t.
    assert (Hst : strength_of c6_dict d = Some c) by (unfold strength_of; rewrite HN; exact Hc).
    pose proof (C53_translation set_iter Hs is_ham c6_dict d r c _ b Nd Hst Hb rho) as Hm. clear Hb. cbn [means] in Hm.
    set (T := (x * fm_total n weights w / M)%R) in *.
    assert (K : forall l E, (fix go bs E := match bs with
                        | [] => E = idop
                        | TRot dur om de ph s ap :: bs' => exists A B, drives d c r dur om de ph s ap A /\ go bs' B /\ E = seqop A B
                        | _ :: bs' => go bs' E end) (map (fm_rotation n M weights w x) l) E ->
              E = diag (fun s => - (INR (length l) * T * energy c r s) - x * M_PSR.rsum (map (fun i => fm_weight weights w i * b2r (s i)) l))%R).
    { induction l as [|i l IH]; intros E HE; cbn [map] in HE.
      - rewrite HE. symmetry. apply diag_0. intros s. cbn [length INR map M_PSR.rsum]. ring.
      - unfold fm_rotation at 1 in HE. destruct HE as (A & B & HA & HB & ->). apply IH in HB. subst B.
        unfold drives in HA. cbn [driven] in HA.
        assert (LA : loc (inl (nodup Nat.eq_dec (i :: map fst r ++ seq 0 (length r)))) (addop (H_background d c r true) (H_drive 0 (- (M * fm_weight weights w i / fm_total n weights w)) 0 [i]))).
        { apply loc_add; [apply loc_background|apply loc_drive].
          - intros q I. apply nodup_In. right. apply in_app_iff. left. exact I.
          - intros q I. apply nodup_In. right. apply in_app_iff. right. apply in_seq. lia.
          - intros q [<-|[]]. apply nodup_In. left. reflexivity. }
        assert (QH : addop (H_background d c r true) (H_drive 0 (- (M * fm_weight weights w i / fm_total n weights w)) 0 [i]) =
                     rdiag (fun s => energy c r s + M * fm_weight weights w i / fm_total n weights w * b2r (s i))%R).
        { unfold H_background. rewrite HP, HN, addop_zero_r, int_rdiag, local_detuning_rdiag, rdiag_add. apply rdiag_ext. intros s. rewrite Ropp_involutive. reflexivity. }
        rewrite QH in LA, HA. rewrite (evolves_diag _ _ _ _ (NoDup_nodup _ _) LA HA), diag_seq. apply diag_ext. intros s.
        replace (1000 * (x * fm_total n weights w / M) / 1000)%R with T by (unfold T; field; exact HM).
        assert (TX : (T * (M * fm_weight weights w i / fm_total n weights w) = x * fm_weight weights w i)%R) by (unfold T; field; split; assumption).
        cbn [length map M_PSR.rsum]. rewrite S_INR.
        replace (- (T * (energy c r s + M * fm_weight weights w i / fm_total n weights w * b2r (s i))))%R with (- (T * energy c r s) - (T * (M * fm_weight weights w i / fm_total n weights w)) * b2r (s i))%R by ring.
        rewrite TX. ring. }
    specialize (K (seq 0 n) _ Hm). rewrite seq_length in K. exact K.
  Qed.
  (** Such a feature map is always translated on such a device. *)
  Theorem C69_feature_translated : forall n M weights w x t t' d r c, rydberg_feature_map n M weights w x = Some t -> rebuild_kron set_iter t = Some t' ->
    d_coupling d = NN -> d_pattern d = None -> c6_dict (d_level d) = Some c -> exists b, add_background_hamiltonian set_iter is_ham c6_dict (Some d) r t' = Some (Translated b).
  Proof.
    intros n M weights w x t t' d r c H Ht HN HP Hc. rewrite (C69_feature_kron _ _ _ _ _ _ H) in Ht. injection Ht as <-.
    assert (N : n <> 0%nat) by (apply (C69_feature_defined n M weights w x); exists t; exact H).
    apply (C53_defined set_iter Hs is_ham c6_dict); [exact I|]. split; [exists c; unfold strength_of; rewrite HN; exact Hc|]. split; [congruence|].
    cbn [has_drives]. destruct n as [|n]; [congruence|]. repeat eexists. left. reflexivity.
  Qed.
End Feature.

(** ** The detunings *)
(** "max_abs_detuning: maximum value of absolute detuning for each qubit": kept for weights of one sign. *)
Lemma rsum_bound l v : (forall y, In y l -> (0 <= y)%R) -> In v l -> (v <= M_PSR.rsum l)%R.
Proof.
  induction l as [|y l IH]; intros H I; [destruct I|]. cbn [M_PSR.rsum]. assert (P : forall l, (forall y, In y l -> (0 <= y)%R) -> (0 <= M_PSR.rsum l)%R).
  { clear. induction l as [|y l IH]; intros H; cbn [M_PSR.rsum]; [lra|]. specialize (H y (or_introl eq_refl)) as Hy. specialize (IH (fun z I => H z (or_intror I))). lra. }
  destruct I as [->|I]; [specialize (P l (fun z I => H z (or_intror I))); lra|]. specialize (IH (fun z I => H z (or_intror I)) I). specialize (H y (or_introl eq_refl)). lra.
Qed.
Theorem C69_detuning : forall n M weights w x t i, rydberg_feature_map n M weights w x = Some t -> (0 < M)%R ->
  (forall j, (j < n)%nat -> (0 <= fm_weight weights w j)%R) -> (i < n)%nat ->
  exists dur de, nth_error (match t with TKron bs => bs | _ => [] end) i = Some (TRot dur 0 de 0 (SLocal [i]) true) /\ (Rabs de <= M)%R.
Proof.
  intros n M weights w x t i H HM Hw Hi. rewrite (C69_feature_rotations _ _ _ _ _ _ H). rewrite nth_error_map. assert (E : nth_error (seq 0 n) i = Some i). { rewrite (nth_error_nth' _ 0%nat) by (rewrite seq_length; exact Hi). rewrite seq_nth by exact Hi. reflexivity. }
  rewrite E. cbn [option_map]. eexists. eexists. split; [reflexivity|].
  assert (HS : fm_total n weights w <> 0%R) by (destruct (proj1 (C69_feature_defined n M weights w x) (ex_intro _ t H)) as (_ & _ & K & _); exact K).
  assert (B : (0 <= fm_weight weights w i <= fm_total n weights w)%R).
  { split; [apply Hw, Hi|]. apply rsum_bound; [|apply in_map, in_seq; lia]. intros y I. apply in_map_iff in I as (j & <- & J). apply in_seq in J. apply Hw. lia. }
  assert (PS : (0 < fm_total n weights w)%R) by lra. rewrite Rabs_Ropp. rewrite Rabs_pos_eq.
  - apply (Rmult_le_reg_r (fm_total n weights w)); [exact PS|]. unfold Rdiv. rewrite Rmult_assoc, Rinv_l by exact HS. rewrite Rmult_1_r. apply Rmult_le_compat_l; lra.
  - apply Rmult_le_pos; [apply Rmult_le_pos; lra|left; apply Rinv_0_lt_compat; exact PS].
Qed.
(** The weights are not constrained: with weights of both signs a detuning exceeds the documented maximum. *)
Theorem C69_detuning_refuted : exists t de, rydberg_feature_map 2 1 (Some [2; -1]%R) (fun _ => 0%R) 1 = Some t /\
  nth_error (match t with TKron bs => bs | _ => [] end) 0 = Some (TRot (1000 * (1 * 1 / 1)) 0 de 0 (SLocal [0%nat]) true) /\ (Rabs de > 1)%R.
Proof.
  assert (T : fm_total 2 (Some [2; -1]%R) (fun _ => 0%R) = 1%R) by (unfold fm_total; cbn; ring).
  assert (D : exists t, rydberg_feature_map 2 1 (Some [2; -1]%R) (fun _ => 0%R) 1 = Some t).
  { apply C69_feature_defined. split; [discriminate|]. split; [lra|]. split; [rewrite T; lra|]. intros ws Q. injection Q as <-. split; [simpl; lia|]. intros [|[|i]] Hi; cbn [nth]; [lra|lra|lia]. }
  destruct D as [t E]. exists t, (-2)%R. split; [exact E|]. rewrite (C69_feature_rotations _ _ _ _ _ _ E). split; [|rewrite Rabs_left; lra]. cbn [seq map nth_error]. unfold fm_rotation. rewrite T. cbn [fm_weight nth].
  do 2 f_equal. field.
Qed.
(** ** The tower *)
(** The tower feature map is the one with the weights 1, 2, ..., n: the atoms are turned by x, 2 x, ..., n x. *)
Lemma tower_total n : fm_total n (Some (map INR (seq 1 n))) (fun _ => 0%R) = (INR n * (INR n + 1) / 2)%R.
Proof.
  unfold fm_total. assert (K : map (fm_weight (Some (map INR (seq 1 n))) (fun _ => 0%R)) (seq 0 n) = map (fun i => INR i + 1)%R (seq 0 n)).
  { apply map_ext_in. intros i I. apply in_seq in I. cbn [fm_weight]. rewrite (nth_indep _ _ (INR 0)) by (rewrite map_length, seq_length; lia). rewrite map_nth, seq_nth by lia. cbn [Nat.add]. apply S_INR. }
  rewrite K. clear K. induction n as [|n IH]; [cbn; field|]. rewrite seq_S, map_app. cbn [Nat.add map].
  assert (A : forall a b, M_PSR.rsum (a ++ b) = (M_PSR.rsum a + M_PSR.rsum b)%R) by (induction a as [|y a IHa]; intros b; cbn [app M_PSR.rsum]; [ring|rewrite IHa; ring]).
  rewrite A, IH. cbn [M_PSR.rsum]. rewrite S_INR. field.
Qed.
Theorem C69_tower : forall n M x t, rydberg_tower_feature_map n M x = Some t ->
  t = TKron (map (fun i => TRot (1000 * (x * (INR n * (INR n + 1) / 2) / M)) 0 (- (M * (INR i + 1) / (INR n * (INR n + 1) / 2))) 0 (SLocal [i]) true) (seq 0 n)).
Proof.
  intros n M x t H. unfold rydberg_tower_feature_map in H. rewrite (C69_feature_rotations _ _ _ _ _ _ H). f_equal. apply map_ext_in. intros i I. apply in_seq in I. unfold fm_rotation. rewrite tower_total.
  cbn [fm_weight]. rewrite (nth_indep _ _ (INR 0)) by (rewrite map_length, seq_length; lia). rewrite map_nth, seq_nth by lia. cbn [Nat.add]. rewrite S_INR. reflexivity.
Qed.
Theorem C69_tower_defined : forall n M x, (exists t, rydberg_tower_feature_map n M x = Some t) <-> n <> 0%nat /\ M <> 0%R.
Proof.
  intros n M x. unfold rydberg_tower_feature_map. rewrite C69_feature_defined, tower_total. split; [tauto|]. intros [N HM]. split; [exact N|]. split; [exact HM|]. split.
  - assert (0 < INR n)%R by (apply lt_0_INR; lia). assert (0 < INR n * (INR n + 1))%R by (apply Rmult_lt_0_compat; lra). lra.
  - intros ws Q. injection Q as <-. rewrite map_length, seq_length. split; [lia|]. intros i Hi. rewrite (nth_indep _ _ (INR 0)) by (rewrite map_length, seq_length; exact Hi). rewrite map_nth, seq_nth by exact Hi. apply not_0_INR. discriminate.
Qed.

(** * The analog feature map *)
(** One operation whose angle is the multiplier times the basis function of the scaled feature; only the constant scaling and
    callables are accepted. *)
Theorem C69_analog : forall op fm sc fr tr m x t, analog_feature_map op fm sc fr tr m x = Some t <->
  exists v, fm_parameter_scaling fm fr tr x = Some v /\
    (let theta := ((match m with None => 1 | Some k => k end) * (match fm with FOURIER => v | CHEBYSHEV => acos v | Custom g => g v end))%R in
     sc = Constant /\ t = op theta \/ exists f, sc = Callable f /\ t = f op theta).
Proof.
  intros op fm sc fr tr m x t. unfold analog_feature_map. destruct (fm_parameter_scaling fm fr tr x) as [v|]; cbn [obind].
  2:{ split; [discriminate|intros (v & H & _); discriminate H]. }
  replace (fm_parameter_func fm v) with (match fm with FOURIER => v | CHEBYSHEV => acos v | Custom g => g v end) by (destruct fm; reflexivity). cbv zeta. split.
  - intros H. exists v. split; [reflexivity|]. destruct sc as [|f|]; try discriminate H; injection H as <-; [left; tauto|right; eexists; split; reflexivity].
  - intros (v' & Q & H). injection Q as <-. destruct H as [[-> ->]|(f & -> & ->)]; reflexivity.
Qed.

(** * Examples *)
Example C69_hea_witness : exists b, rydberg_hea (nodup Nat.eq_dec) (fun _ => true) (HReg [0; 1; 2]%nat [(0, 1); (1, 2)]%nat) 2 true true true (Some "p"%string) = Some b /\ List.length (bparams b) <> 0%nat /\
  In "Omega_p_1"%string (bparams b) /\ In "drivemap_2"%string (bparams b).
Proof.
  assert (So : set_order (nodup Nat.eq_dec)) by (intros l; split; [apply NoDup_nodup|intros x; apply nodup_In]).
  assert (D : exists b, rydberg_hea (nodup Nat.eq_dec) (fun _ => true) (HReg [0; 1; 2]%nat [(0, 1); (1, 2)]%nat) 2 true true true (Some "p"%string) = Some b).
  { apply (C69_hea_defined _ So). intros _ e [<-|[<-|[]]]; discriminate. }
  destruct D as [b E]. exists b. split; [exact E|]. pose proof (proj1 (C69_names _ So _ _ _ _ _ _ _ _ E ltac:(discriminate))) as N.
  assert (I1 : In "Omega_p_1"%string (bparams b)) by (apply N; unfold expected; apply in_app_iff; left; cbn; tauto).
  split; [intros Z; destruct (bparams b); [exact I1|discriminate Z]|]. split; [exact I1|]. apply N. unfold expected. apply in_app_iff. right. apply in_app_iff. right. apply in_app_iff. left. cbn. tauto.
Qed.
Example C69_tower_witness : forall x c, exists t t' b, rydberg_tower_feature_map 3 5 x = Some t /\ rebuild_kron (nodup Nat.eq_dec) t = Some t' /\
  add_background_hamiltonian (nodup Nat.eq_dec) (fun _ => true) (fun _ => Some c) (Some (Device NN 60 0 None)) [(0%nat, (0, 0)%R); (1%nat, (1, 0)%R); (2%nat, (2, 0)%R)] t' = Some (Translated b) /\
  forall rho, exists f, den rho b = diag f /\ f (fun q => Nat.eqb q 2) = (- (3 * x))%R.
Proof.
  intros x c. assert (So : set_order (nodup Nat.eq_dec)) by (intros l; split; [apply NoDup_nodup|intros q; apply nodup_In]).
  destruct (proj2 (C69_tower_defined 3 5 x)) as [t E]; [split; [discriminate|lra]|]. pose proof E as E0. unfold rydberg_tower_feature_map in E. pose proof (C69_feature_kron _ So _ _ _ _ _ _ E) as K. exists t. eexists.
  destruct (C69_feature_translated _ So (fun _ => true) (fun _ => Some c) _ _ _ _ _ _ _ (Device NN 60 0 None) [(0%nat, (0, 0)%R); (1%nat, (1, 0)%R); (2%nat, (2, 0)%R)] c E K eq_refl eq_refl eq_refl) as [b Hb].
  exists b. split; [exact E0|]. split; [exact K|]. split; [exact Hb|]. intros rho. eexists. split.
  - apply (C69_feature_effect _ So (fun _ => true) (fun _ => Some c) _ _ _ _ _ _ _ (Device NN 60 0 None) [(0%nat, (0, 0)%R); (1%nat, (1, 0)%R); (2%nat, (2, 0)%R)] c b E K eq_refl eq_refl eq_refl); [repeat constructor; simpl; intuition lia|exact Hb].
  - unfold energy. cbn [map M_PSR.rsum seq fst snd Nat.ltb Nat.leb Nat.eqb b2r fm_weight nth]. rewrite !Rmult_0_l, !Rmult_0_r. simpl. ring.
Qed.

Print Assumptions C69_layer.
Print Assumptions C69_layer_defined.
Print Assumptions C69_hea.
Print Assumptions C69_hea_defined.
Print Assumptions C69_names.
Print Assumptions C69_diagonal.
Print Assumptions C69_prefix_refuted.
Print Assumptions C69_interaction_refuted.
Print Assumptions C69_feature_rotations.
Print Assumptions C69_feature_defined.
Print Assumptions C69_feature_kron.
Print Assumptions C69_feature_effect.
Print Assumptions C69_feature_translated.
Print Assumptions C69_detuning.
Print Assumptions C69_detuning_refuted.
Print Assumptions C69_tower.
Print Assumptions C69_tower_defined.
Print Assumptions C69_analog.
Print Assumptions C69_rebuild_other.
