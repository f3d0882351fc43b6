(** C23, sDAQC strategy: the circuit approximates the discrete Fourier transform. *)
From Coq Require Import String Reals ZArith List Arith Bool Lia Lra FunctionalExtensionality Permutation Sorted.
From Coquelicot Require Import Coquelicot.
From Coq Require Import List.
From Verif Require Import S_Sets S_Ops L_Ops M_QubitSupport M_Block S_Den L_Den L_Loc L_Adj L_Gates M_BlockOps L_Support L_Exp L_Tensor L_ExpMul L_ExpOp L_PauliExp M_Tensor M_Transpile P_Dagger M_PSR S_PSR P_PSR S_State L_Inner M_States P_States P_Unitary P_Operators
  P_Invert P_Tomography M_Qft P_Qft P_Overlap M_Names M_Hamiltonians P_Hamiltonians M_Hea P_Hea M_Pauli P_Pauli L_Diag M_Daqc L_DaqcIx L_DaqcLin P_Daqc S_Near L_Near M_QftDaqc.
Import ListNotations.
Open Scope nat_scope.
Open Scope R_scope.

(** * Specification *)
(** The cut-off below which an interaction or a slice counts as zero. *)
Definition tol : R := 1 / 10 ^ 8.
(** The phases layer [l] has to apply: a Z Z interaction of the qubit of the layer with each later one. *)
Definition layer_zz (n : nat) (s : list nat) (l : nat) : block :=
  BAdd (map (fun j => BScale (BKron [BPrim PZ (nth l s 0%nat); BPrim PZ (nth j s 0%nat)]) (ECst (RtoC (PI / 2 ^ (j - l + 2))))) (seq (l + 1) (n - (l + 1)))).
(** The error one layer may make. *)
Definition layer_error (rho : env) (N : nat) (build : block) : R :=
  tol * INR (List.length (pairs_of N)) * (over_pairs N (fun q => Rabs (coupling rho build (fst q) (snd q))) + 1).
(** The qubits 0 .. n-1, in increasing or decreasing order. *)
Definition straight (n : nat) (support : option (list nat)) : Prop := support = None \/ support = Some (seq 0 n) \/ support = Some (rev (seq 0 n)).

(** * Blocks of the transform *)
Lemma rdiag_adj rho g E : den rho g = rdiag E -> adj_on (uqubits g) (den rho g) (den rho g).
Proof.
  intros -> r c Hr Hc. assert (N : NoDup (uqubits g)) by apply NoDup_nodup.
  assert (M : forall r c, List.length r = List.length (uqubits g) -> matof (uqubits g) (rdiag E) r c = (RtoC (E (upds zeros (uqubits g) r)) * (if eqbits r c then 1 else 0))%C).
  { intros r' c' H'. unfold matof, rdiag, ket. rewrite upds_map by assumption. reflexivity. }
  rewrite !M by assumption. destruct (eqbits r c) eqn:E1.
  - apply eqbits_true in E1. subst c. rewrite (proj2 (eqbits_true r r) eq_refl). apply Ceq; cbn; ring.
  - destruct (eqbits c r) eqn:E2; [|apply Ceq; cbn; ring]. apply eqbits_true in E2. subst c. rewrite (proj2 (eqbits_true r r) eq_refl) in E1. discriminate.
Qed.
Definition fine (rho : env) (b : block) : Prop := gate_block rho b /\ dag_ok rho b.
Lemma fine_chain rho l : Forall (fine rho) l -> fine rho (BChain l).
Proof. apply chain_ok. Qed.
Lemma fine_evo rho g E t : den rho g = rdiag E -> fine rho (BEvo g t).
Proof. intros H. pose proof (rdiag_adj rho g E H) as A. split; exact A. Qed.
Lemma fine_xx rho a b : fine rho (BKron [BPrim PX a; BPrim PX b]).
Proof. split; cbn; auto. Qed.
Lemma slices_fine si rho n build dt ts zt Eb : set_order si -> den rho build = rdiag Eb -> (match dt with Some h => exists Eh, den rho h = rdiag Eh | None => True end) ->
  forall ps sl, slices si n build dt ts zt ps = Some sl -> Forall (fine rho) sl.
Proof.
  intros O HB HD. induction ps as [|[a m] ps IH]; intros sl H; cbn [slices] in H; [injection H as <-; constructor|].
  destruct (tpos _ _) as [al|]; [|discriminate]. destruct (slices si n build dt ts zt ps) as [rest|]; [|discriminate]. specialize (IH rest eq_refl).
  destruct (Rlt_dec _ _); [|injection H as <-; exact IH]. destruct (mk_kron si _) as [xg|] eqn:K; [|discriminate].
  assert (X : xg = BKron [BPrim PX (a - 1); BPrim PX (m - 1)]) by (unfold mk_kron in K; destruct (kron_check _ _ _); congruence). subst xg. apply some_eq in H. subst sl. constructor; [|exact IH].
  destruct dt as [h|]; apply fine_chain.
  - destruct HD as [Eh HH]. constructor; [apply fine_xx|]. constructor; [apply (fine_evo _ _ Eh); exact HH|]. constructor; [apply (fine_evo _ _ Eb); exact HB|]. constructor; [apply fine_xx|constructor].
  - constructor; [apply fine_xx|]. constructor; [apply (fine_evo _ _ Eb); exact HB|]. constructor; [apply fine_xx|constructor].
Qed.
Lemma daqc_fine si rho solve n pb pt build target t_f zt ignore b : set_order si -> ascending_below n si -> zorn pb -> zorn pt -> two_body rho pb n build -> two_body rho pt n target ->
  daqc_transform si rho solve n target t_f (Some build) zt true ignore = Some b -> fine rho b.
Proof.
  intros O A Zb Zt TB TT H. unfold daqc_transform in H. cbn [negb] in H. destruct (Nat.eqb n 4); [discriminate|]. cbn [obind] in H.
  destruct (negb (block_is_qubit_hamiltonian target) || negb (block_is_qubit_hamiltonian build)); [discriminate|].
  destruct (parse_generator si rho n target 0) as [[[gt mt] tyt]|] eqn:PT; [|discriminate]. cbn [obind] in H.
  destruct (parse_generator si rho n build zt) as [[[gb mb] tyb]|] eqn:PB; [|discriminate]. cbn [obind] in H.
  destruct (parse_ok si rho pt n target 0 gt mt tyt O A Zt TT PT) as (Et & Lt & Qt & Mt). destruct (parse_ok si rho pb n build zt gb mb tyb O A Zb TB PB) as (Eb & Lb & Qb & Mb).
  assert (AUX : forall ty m f a, (forall j k, m j k = if Nat.eqb j k then 0 else f (mm j k)) -> match ty with GNN => option_map Some (nn_phase_and_detunings si n m) | GZZ => Some None end = Some a ->
     match a with Some (hp, hs) => (exists E, den rho hp = rdiag E) /\ exists E, den rho hs = rdiag E | None => True end).
  { intros ty m f a Hm E. destruct ty; [injection E as <-; exact I|]. destruct (nn_phase_and_detunings si n m) as [[hp hs]|] eqn:ND; [|discriminate]. cbn [option_map] in E. injection E as <-.
    destruct (phase_detunings si rho n m f hp hs O Hm ND) as [D1 D2]. split; eexists; eassumption. }
  destruct (match tyb with GNN => option_map Some (nn_phase_and_detunings si n mb) | GZZ => Some None end) as [auxb|] eqn:AB; [|discriminate]. cbn [obind] in H.
  destruct (match tyt with GNN => option_map Some (nn_phase_and_detunings si n mt) | GZZ => Some None end) as [auxt|] eqn:AT; [|discriminate]. cbn [obind] in H.
  apply (AUX tyb mb (cpl rho build) auxb Mb) in AB. apply (AUX tyt mt (cpl rho target) auxt Mt) in AT. clear AUX.
  destruct (check_compatibility gt gb zt); [|discriminate]. destruct (build_matrix_M n); [|discriminate]. cbn [obind] in H. destruct (solve _ _ _) as [x|]; [|discriminate]. cbn [obind] in H. cbv zeta in H.
  destruct (slices si n build _ _ zt (loop_pairs n)) as [sl|] eqn:SL; [|discriminate]. cbn [obind] in H. apply some_eq in H.
  apply (slices_fine si rho n build _ _ zt _ O (two_body_den rho pb n build Zb TB)) in SL; [|destruct auxb as [[hp hs]|]; [exact (proj2 AB)|exact I]].
  assert (D : forall h t, (exists E, den rho h = rdiag E) -> fine rho (dagger (BEvo h (num t)))) by (intros h t [E HE]; exact (fine_evo rho h E (ENeg (num t)) HE)).
  assert (D' : forall h t, (exists E, den rho h = rdiag E) -> fine rho (BEvo h (num t))) by (intros h t [E HE]; exact (fine_evo rho h E (num t) HE)).
  assert (P2 : forall a c, fine rho a -> fine rho c -> fine rho (BChain [a; c])) by (intros; apply fine_chain; constructor; [assumption|constructor; [assumption|constructor]]).
  assert (F0 : fine rho (BChain sl)) by (apply fine_chain; exact SL).
  subst b. destruct auxb as [[hpb hsb]|], auxt as [[hpt hst]|], ignore; try destruct AB; try destruct AT; repeat (apply P2); auto.
Qed.

(** * The generators of a layer *)
Lemma dadd_rdiag {A} rho (g : A -> block) (E : A -> asg -> R) l : (forall a, In a l -> den rho (g a) = rdiag (E a)) -> den rho (BAdd (map g l)) = rdiag (fun x => rsum (map (fun a => E a x) l)).
Proof.
  change (den rho (BAdd (map g l))) with (dadd rho (map g l)). induction l as [|a l IH]; intros H; [symmetry; exact rdiag_zero|]. cbn [map dadd fold_right]. change (fold_right (fun b k => addop (den rho b) k) zeroop (map g l)) with (dadd rho (map g l)).
  rewrite IH by (intros; apply H; right; assumption). rewrite H by (left; reflexivity). rewrite rdiag_add. reflexivity.
Qed.
Lemma rsum_flat {A B} (f : A -> list B) (h : B -> R) l : rsum (map h (flat_map f l)) = rsum (map (fun a => rsum (map h (f a))) l).
Proof. induction l as [|a l IH]; [reflexivity|]. cbn [flat_map map]. rewrite map_app, rsum_app, IH. reflexivity. Qed.
(** The pairs (k, c) of the loops of [_tqg_gen]. *)
Definition kcs (n : nat) (inverse : bool) : list (nat * nat) := flat_map (fun k => map (pair k) (seq 1 (k - 1))) (if inverse then rev (seq 2 (n - 1)) else seq 2 (n - 1)).
Lemma kcs_in n inverse k c : In (k, c) (kcs n inverse) -> (1 <= c /\ c < k /\ k <= n)%nat.
Proof.
  intros H. apply in_flat_map in H as (k' & Hk & H). apply in_map_iff in H as (c' & E & Hc). injection E as -> ->. apply in_seq in Hc.
  assert (In k (seq 2 (n - 1))) as J by (destruct inverse; [apply in_rev in Hk|]; exact Hk). apply in_seq in J. lia.
Qed.
Lemma alpha_sum n (inverse : bool) l (h : nat -> nat -> R) : (l < n)%nat ->
  rsum (map (fun kc => alpha (snd kc) (l + 1) (fst kc) * h (snd kc - 1)%nat (fst kc - 1)%nat) (kcs n inverse)) = rsum (map (fun j => PI / 2 ^ (j - l + 2) * h l j) (seq (l + 1) (n - (l + 1)))).
Proof.
  intros Hl. unfold kcs. rewrite rsum_flat.
  set (F := fun k : nat => if Nat.ltb (l + 1) k then PI / 2 ^ (k - 1 - l + 2) * h l (k - 1)%nat else 0).
  transitivity (rsum (map F (seq 2 (n - 1)))).
  - transitivity (rsum (map F (if inverse then rev (seq 2 (n - 1)) else seq 2 (n - 1)))).
    + apply rsum_ext. intros k _. rewrite map_map. cbn [fst snd]. unfold F. destruct (Nat.ltb_spec (l + 1) k) as [L|L].
      * rewrite (rsum_ext _ (fun c => (if Nat.eqb (l + 1) c then 1 else 0) * (PI / 2 ^ (k - 1 - l + 2) * h (c - 1)%nat (k - 1)%nat))).
        -- rewrite (rsum_delta Nat.eqb Nat.eqb_eq (fun c => PI / 2 ^ (k - 1 - l + 2) * h (c - 1)%nat (k - 1)%nat)); [|apply seq_NoDup|apply in_seq; lia]. replace (l + 1 - 1)%nat with l by lia. reflexivity.
        -- intros c _. unfold alpha. rewrite (Nat.eqb_sym (l + 1) c). destruct (Nat.eqb_spec c (l + 1)) as [->|]; [|ring]. replace (k - (l + 1) + 2)%nat with (k - 1 - l + 2)%nat by lia. ring.
      * apply rsum_zero. intros c Hc. apply in_seq in Hc. unfold alpha. destruct (Nat.eqb_spec c (l + 1)); [lia|ring].
    + apply rsum_perm, Permutation_map. destruct inverse; [symmetry; apply Permutation_rev|reflexivity].
  - replace (n - 1)%nat with (l + (n - (l + 1)))%nat by lia. rewrite seq_app, map_app, rsum_app. rewrite (rsum_zero F (seq 2 l)).
    + rewrite Rplus_0_l. replace (2 + l)%nat with (S (l + 1)) by lia. rewrite <- seq_shift, map_map. apply rsum_ext. intros j Hj. apply in_seq in Hj. unfold F. destruct (Nat.ltb_spec (l + 1) (S j)); [|lia]. replace (S j - 1)%nat with j by lia. reflexivity.
    + intros k Hk. apply in_seq in Hk. unfold F. destruct (Nat.ltb_spec (l + 1) k); [lia|reflexivity].
Qed.

Section Layer.
  Variables (si : list nat -> list nat) (rho : env) (n : nat) (s : list nat).
  Hypothesis O : set_order si.
  Hypothesis HS : s = seq 0 n \/ s = rev (seq 0 n).
  Lemma s_nodup : NoDup s.
  Proof. destruct HS as [-> | ->]; [|apply NoDup_rev]; apply seq_NoDup. Qed.
  Lemma s_length : List.length s = n.
  Proof. destruct HS as [-> | ->]; rewrite ?rev_length; apply seq_length. Qed.
  Lemma s_below q : In q s <-> (q < n)%nat.
  Proof. destruct HS as [-> | ->]; rewrite <- ?in_rev, in_seq; lia. Qed.
  Lemma sq_below i : (i < n)%nat -> (sq s i < n)%nat.
  Proof. intros H. apply s_below, nth_In. rewrite s_length. exact H. Qed.
  Lemma s_allowed : allowed_support n s = true.
  Proof. unfold allowed_support. destruct HS as [-> | ->]; apply orb_true_iff; [left|right]; destruct (list_eq_dec _ _ _); congruence. Qed.
  Let err := sq_error n s s_length.
  Let inj := sq_inj n s s_nodup s_length.

  Definition sqg_block (l k : nat) : block :=
    BScale (BAdd [BAdd [BKron (map (BPrim PI_) s); BScale (BPrim PZ (sq s (k + l - 1))) (ECst (- (1))%C)]; BScale (BPrim PZ (sq s l)) (ECst (- (1))%C)]) (num (theta k)).
  Lemma sqg_term_ok l k : (l < n)%nat -> (2 <= k)%nat -> (k + l <= n)%nat -> sqg_term si n s (l + 1) k = Some (sqg_block l k).
  Proof.
    intros Hl H1 H2. unfold sqg_term. rewrite (osequence_some_map _ (fun j => BPrim PI_ (sq s j))) by (intros j Hj; apply in_seq in Hj; unfold at_; rewrite err by lia; reflexivity).
    cbn [M_Tensor.obind]. rewrite <- (map_map (sq s) (BPrim PI_)), (map_sq n s s_length). rewrite kron_ok; [|exact O|intros E; apply map_eq_nil in E; pose proof s_length as L; rewrite E in L; cbn in L; lia|apply prims_disjoint, s_nodup].
    cbn [M_Tensor.obind]. replace (k + (l + 1) - 2)%nat with (k + l - 1)%nat by lia. replace (l + 1 - 1)%nat with l by lia. rewrite !err by lia. cbn [M_Tensor.obind]. reflexivity.
  Qed.
  Lemma sqg_block_den l k : den rho (sqg_block l k) = rdiag (fun x => theta k * (1 - zs x (sq s (k + l - 1)) - zs x (sq s l))).
  Proof.
    unfold sqg_block. set (a := sq s (k + l - 1)). set (b := sq s l).
    change (scaleop (RtoC (theta k)) (addop (addop (dchain rho (map (BPrim PI_) s)) (addop (scaleop (- (1))%C (gate1 a (prim_mat PZ))) zeroop)) (addop (scaleop (- (1))%C (gate1 b (prim_mat PZ))) zeroop)) = rdiag (fun x => theta k * (1 - zs x a - zs x b))).
    rewrite identity_den, !z_rdiag. extensionality psi. extensionality x. unfold scaleop, addop, idop, zeroop, rdiag. apply Ceq; cbn; ring.
  Qed.
  Lemma sqg_ok l inverse : (l < n)%nat -> exists ks, sqg_gen si n s (l + 1) inverse = Some (map (sqg_block l) ks) /\ List.length ks = (n - (l + 1))%nat /\
    den rho (BAdd (map (sqg_block l) ks)) = rdiag (fun x => rsum (map (fun j => theta (j - l + 1) * (1 - zs x (sq s j) - zs x (sq s l))) (seq (l + 1) (n - (l + 1))))).
  Proof.
    intros Hl. set (ks := if inverse then rev (seq 2 (n - (l + 1))) else seq 2 (n - (l + 1))). exists ks.
    assert (P : Permutation ks (seq 2 (n - (l + 1)))) by (unfold ks; destruct inverse; [symmetry; apply Permutation_rev|reflexivity]). split; [|split].
    - unfold sqg_gen. fold ks. apply osequence_some_map. intros k Hk. apply (Permutation_in _ P) in Hk. apply in_seq in Hk. apply sqg_term_ok; lia.
    - rewrite (Permutation_length P). apply seq_length.
    - rewrite (dadd_rdiag rho (sqg_block l) (fun k x => theta k * (1 - zs x (sq s (k + l - 1)) - zs x (sq s l)))) by (intros; apply sqg_block_den). apply rdiag_ext. intros x.
      rewrite (rsum_perm _ _ (Permutation_map _ P)).
      assert (S : forall m a, seq (a + (l + 1)) m = map (fun k => k + l - 1)%nat (seq (a + 2) m)) by (induction m as [|m IH]; intros a; [reflexivity|]; cbn [seq map]; f_equal; [lia|]; exact (IH (S a))).
      rewrite (S _ 0%nat : seq (l + 1) _ = _), map_map. apply rsum_ext. intros k Hk. apply in_seq in Hk. replace (k + l - 1 - l + 1)%nat with k by lia. reflexivity.
  Qed.

  Definition tqg_block (l : nat) (kc : nat * nat) : block := BScale (BKron [BPrim PZ (sq s (snd kc - 1)); BPrim PZ (sq s (fst kc - 1))]) (num (alpha (snd kc) (l + 1) (fst kc))).
  Lemma tqg_ok l inverse : (l < n)%nat -> tqg_gen si n s (l + 1) inverse = Some (map (tqg_block l) (kcs n inverse)).
  Proof.
    intros Hl. unfold tqg_gen.
    assert (E : forall ks, flat_map (fun k => map (tqg_term si s (l + 1) k) (seq 1 (k - 1))) ks = map (fun kc => tqg_term si s (l + 1) (fst kc) (snd kc)) (flat_map (fun k => map (pair k) (seq 1 (k - 1))) ks)).
    { induction ks as [|k ks IH]; [reflexivity|]. cbn [flat_map]. rewrite map_app, IH, map_map. reflexivity. }
    rewrite E. fold (kcs n inverse). apply osequence_some_map. intros [k c] H. apply kcs_in in H. unfold tqg_term, tqg_block. cbn [fst snd]. rewrite !err by lia. cbn [M_Tensor.obind].
    rewrite kron_ok; [reflexivity|exact O|discriminate|]. constructor; [constructor; [|constructor]|constructor; [constructor|constructor]]. intros q [<-|[]] [F|[]]. apply inj in F; lia.
  Qed.
  Lemma tqg_two_body N l inverse : (n <= N)%nat -> two_body rho PZ N (BAdd (map (tqg_block l) (kcs n inverse))).
  Proof.
    intros HN. apply TBsum, Forall_forall. intros b Hb. apply in_map_iff in Hb as ([k c] & <- & H). apply kcs_in in H. pose proof (sq_below (c - 1)). pose proof (sq_below (k - 1)).
    apply TBscaled; cbn [fst snd]; [lia|lia| |reflexivity|discriminate]. intros F. apply inj in F; lia.
  Qed.
  Lemma tqg_den l inverse : (l < n)%nat -> den rho (BAdd (map (tqg_block l) (kcs n inverse))) = rdiag (fun x => rsum (map (fun j => PI / 2 ^ (j - l + 2) * (zs x (sq s l) * zs x (sq s j))) (seq (l + 1) (n - (l + 1))))).
  Proof.
    intros Hl. rewrite (dadd_rdiag rho (tqg_block l) (fun kc x => alpha (snd kc) (l + 1) (fst kc) * (zs x (sq s (snd kc - 1)) * zs x (sq s (fst kc - 1))))).
    - apply rdiag_ext. intros x. exact (alpha_sum n inverse l (fun a b => zs x (sq s a) * zs x (sq s b)) Hl).
    - intros kc _. unfold tqg_block. change (den rho (BScale ?b (num ?a))) with (scaleop (RtoC a) (den rho b)). rewrite (kron2_den rho PZ) by (left; reflexivity). rewrite rdiag_scale. apply rdiag_ext. intros x. rewrite <- pe_sym. reflexivity.
  Qed.
  Lemma coupling_map {A} (a b : A -> nat) (e : A -> R) l i j : coupling rho (BAdd (map (fun x => BScale (BKron [BPrim PZ (a x); BPrim PZ (b x)]) (num (e x))) l)) i j =
    rsum (map (fun x => e x * (if (Nat.eqb (a x) i && Nat.eqb (b x) j) || (Nat.eqb (a x) j && Nat.eqb (b x) i) then 1 else 0)) l).
  Proof. cbn [coupling]. induction l as [|x l IH]; [reflexivity|]. cbn [map fold_right rsum]. rewrite IH. reflexivity. Qed.
  Lemma tqg_coupling l inverse i j : (l < n)%nat -> coupling rho (BAdd (map (tqg_block l) (kcs n inverse))) i j = coupling rho (layer_zz n s l) i j.
  Proof.
    intros Hl. unfold layer_zz, tqg_block. rewrite (coupling_map (fun kc => sq s (snd kc - 1)) (fun kc => sq s (fst kc - 1)) (fun kc => alpha (snd kc) (l + 1) (fst kc))).
    rewrite (coupling_map (fun _ => sq s l) (fun j => sq s j) (fun j => PI / 2 ^ (j - l + 2))).
    exact (alpha_sum n inverse l (fun a b => if (Nat.eqb (sq s a) i && Nat.eqb (sq s b) j) || (Nat.eqb (sq s a) j && Nat.eqb (sq s b) i) then 1 else 0) Hl).
  Qed.

  (** * One layer *)
  Definition layang (l : nat) (x : asg) : R := rsum (map (fun j => 1 * 2 * PI / 2 ^ (j - l + 1) * b2r (x (sq s j)) * b2r (x (sq s l))) (seq (l + 1) (n - (l + 1)))).
  Definition noisy (inverse : bool) (l : nat) (e : asg -> R) : Op := if inverse then seqop (diag (fun x => - (layang l x + e x))) (hop s l) else seqop (hop s l) (diag (fun x => layang l x + e x)).
  Lemma noisy_0 inverse l e : (forall x, e x = 0) -> noisy inverse l e = layop n s inverse l.
  Proof.
    intros H. unfold noisy, layop, lay. destruct inverse; f_equal; apply diag_ext; intros x; rewrite H.
    - unfold layang. rewrite Rplus_0_r, <- (Rmult_1_l (rsum _)), Ropp_mult_distr_l, <- rsum_scal. apply rsum_ext. intros j _. field. apply pow_nonzero. lra.
    - unfold layang. ring.
  Qed.
  Lemma noisy_inv l e : seqop (noisy false l e) (noisy true l e) = idop.
  Proof.
    unfold noisy. rewrite seqop_assoc, <- (seqop_assoc (diag _) (diag _)), diag_seq. rewrite (diag_0 (fun x => _ + - _)) by (intros; ring). rewrite seqop_id_l. apply hop_hop.
  Qed.
  Lemma last_layer solve l inverse g : (l + 1 = n)%nat -> qft_layer_sdaqc si rho solve n (Some g) s l inverse = Some (BChain [BPrim PH (sq s l)]) /\ den rho (BChain [BPrim PH (sq s l)]) = layop n s inverse l.
  Proof.
    intros E. split.
    - unfold qft_layer_sdaqc. rewrite s_allowed. cbn [negb M_Tensor.obind]. destruct (sqg_ok l inverse) as (ks & -> & L & _); [lia|]. rewrite (tqg_ok l inverse) by lia. cbn [M_Tensor.obind].
      replace (l + 1 - 1)%nat with l by lia. rewrite err by lia. cbn [M_Tensor.obind]. destruct ks; [reflexivity|cbn in L; lia].
    - rewrite <- (noisy_0 inverse l (fun _ => 0)) by reflexivity. change (den rho (BChain [BPrim PH (sq s l)])) with (seqop (hop s l) idop). unfold noisy, layang. replace (n - (l + 1))%nat with 0%nat by lia. cbn [seq map rsum].
      destruct inverse; rewrite diag_0 by (intros; ring); rewrite ?seqop_id_r, ?seqop_id_l; reflexivity.
  Qed.
  Lemma layer_shape solve l inverse g pb N d e : (l + 1 < n)%nat -> N = nqubits si g -> (n <= N)%nat -> ascending_below N si -> zorn pb -> two_body rho pb N g ->
    daqc_transform si rho solve N (BAdd (map (tqg_block l) (kcs n inverse))) (-1) (Some g) tol true false = Some d ->
    (forall psi x, den rho d psi x = (cis (e x) * den rho (BEvo (BAdd (map (tqg_block l) (kcs n inverse))) (num (-1))) psi x)%C) ->
    exists b, qft_layer_sdaqc si rho solve n (Some g) s l inverse = Some b /\ den rho b = noisy inverse l e.
  Proof.
    intros Hl EN HN A Zb TB Ed Dd. unfold qft_layer_sdaqc. rewrite s_allowed. cbn [negb M_Tensor.obind]. destruct (sqg_ok l inverse) as (ks & -> & L & DS); [lia|]. rewrite (tqg_ok l inverse) by lia. cbn [M_Tensor.obind].
    replace (l + 1 - 1)%nat with l by lia. rewrite err by lia. cbn [M_Tensor.obind]. destruct ks as [|k0 ks]; [cbn in L; lia|]. cbn [map]. change (sqg_block l k0 :: map (sqg_block l) ks) with (map (sqg_block l) (k0 :: ks)).
    rewrite <- EN. fold tol. rewrite Ed. cbn [M_Tensor.obind]. eexists. split; [reflexivity|]. set (circ := BChain _).
    assert (DF : den rho d = diag (fun x => e x + rsum (map (fun j => PI / 2 ^ (j - l + 2) * (zs x (sq s l) * zs x (sq s j))) (seq (l + 1) (n - (l + 1)))))).
    { extensionality psi. extensionality x. rewrite Dd, (evo_rdiag rho _ _ _ (tqg_den l inverse ltac:(lia))), ang_num. unfold diag. rewrite Cmult_assoc, cis_add. f_equal. f_equal. ring. }
    assert (DC : den rho circ = noisy false l e).
    { unfold circ. change (seqop (seqop (hop s l) (seqop (den rho (BEvo (BAdd (map (sqg_block l) (k0 :: ks))) (num (-1)))) idop)) (seqop (den rho d) idop) = noisy false l e).
      rewrite !seqop_id_r, DF, (evo_rdiag rho _ _ _ DS), ang_num, seqop_assoc, diag_seq. unfold noisy. f_equal. apply diag_ext. intros x. unfold layang.
      match goal with |- - (-1 * ?A) + (e x + ?B) = ?Q + e x => replace (- (-1 * A) + (e x + B)) with ((A + B) + e x) by ring end. f_equal. rewrite <- rsum_plus. apply rsum_ext. intros j Hj. apply in_seq in Hj.
      unfold theta. replace (j - l + 1 + 1)%nat with (S (j - l + 1)) by lia. replace (j - l + 2)%nat with (S (j - l + 1)) by lia. rewrite !b2r_zs. cbn [pow]. field. apply pow_nonzero. lra. }
    destruct inverse; [|exact DC].
    assert (F : fine rho circ).
    { unfold circ. apply fine_chain. constructor; [|constructor; [|constructor]].
      - apply fine_chain. constructor; [split; exact I|]. constructor; [|constructor]. eapply fine_evo. exact DS.
      - eapply (daqc_fine si rho solve N pb PZ); try eassumption; [left; reflexivity|apply tqg_two_body; exact HN]. }
    destruct (C49_dagger_inverse rho circ (proj1 F) (proj2 F)) as [_ I2]. rewrite DC in I2.
    rewrite <- (seqop_id_r (den rho (dagger circ))), <- (noisy_inv l e), <- seqop_assoc, I2. apply seqop_id_l.
  Qed.
End Layer.

(** * The build Hamiltonian *)
Lemma no_term_coupling rho p n g i j : two_body rho p n g -> has_term g = false -> coupling rho g i j = 0.
Proof.
  intros T. induction T as [| |bs F0 F|bs e F0 F Ie] using two_body_ind'; cbn [has_term]; intros E; [discriminate|discriminate| |].
  - cbn [coupling]. clear F0; induction F as [|b bs T F IH]; [reflexivity|]. cbn [existsb] in E. apply orb_false_iff in E as [E1 E2]. cbn [fold_right]. rewrite (T E1), (IH E2). ring.
  - cbn [coupling]. replace (fold_right _ 0 bs) with 0; [ring|]. clear F0; induction F as [|b bs T F IH]; [reflexivity|]. cbn [existsb] in E. apply orb_false_iff in E as [E1 E2]. cbn [fold_right]. rewrite (T E1), <- (IH E2). ring.
Qed.
Lemma coupling_outside rho p n g i j : two_body rho p n g -> (n <= i \/ n <= j)%nat -> coupling rho g i j = 0.
Proof.
  intros T H. assert (K : forall a b, (a < n)%nat -> (b < n)%nat -> (Nat.eqb a i && Nat.eqb b j) || (Nat.eqb a j && Nat.eqb b i) = false).
  { intros a b Ha Hb. destruct (Nat.eqb_spec a i), (Nat.eqb_spec b j), (Nat.eqb_spec a j), (Nat.eqb_spec b i); try reflexivity; lia. }
  induction T as [a b Ha Hb|a b e Ha Hb|bs F0 F|bs e F0 F Ie] using two_body_ind'.
  - cbn [coupling]. rewrite K by assumption. reflexivity.
  - cbn [coupling]. rewrite K by assumption. ring.
  - cbn [coupling]. clear F0; induction F as [|b bs T F IH]; [reflexivity|]. cbn [fold_right]. rewrite T, IH. ring.
  - cbn [coupling]. replace (fold_right _ 0 bs) with 0; [ring|]. clear F0; induction F as [|b bs T F IH]; [reflexivity|]. cbn [fold_right]. rewrite T, <- IH. ring.
Qed.
Lemma tol_pos : 0 < tol.
Proof. unfold tol. apply Rdiv_lt_0_compat; [lra|]. apply pow_lt. lra. Qed.
Lemma error_nonneg rho N g : 0 <= layer_error rho N g.
Proof.
  unfold layer_error. pose proof tol_pos. pose proof (pos_INR (List.length (pairs_of N))). assert (0 <= over_pairs N (fun q => Rabs (coupling rho g (fst q) (snd q)))).
  { unfold over_pairs. induction (pairs_of N) as [|q l IH]; [cbn; lra|]. cbn [map rsum fold_right]. pose proof (Rabs_pos (coupling rho g (fst q) (snd q))). specialize (IH (pos_INR _)). lra. }
  apply Rmult_le_pos; [apply Rmult_le_pos; lra|lra].
Qed.
Lemma default_build si n : set_order si -> hamiltonian_factory si block_is_qubit_hamiltonian (alltoall n) (Some INN) None SNone SNone None false = Some (full_nn n).
Proof.
  intros O. unfold hamiltonian_factory. cbn [int_fn option_map obind preprocess_strengths]. rewrite alltoall_edges. cbn [app].
  assert (W : forall l, (forall q, In q l -> (fst q < snd q)%nat) -> osequence (map (fun we : expr * (nat * nat) => option_map (fun b => op_scale b (fst we)) (interaction_nn si (fst (snd we)) (snd (snd we)))) (combine (map (fun _ => ECst (RtoC 1)) (seq 0 (List.length l))) l)) =
        Some (map (fun q => BScale (BKron [BPrim (PN true) (fst q); BPrim (PN true) (snd q)]) (ECst (RtoC 1))) l)).
  { induction l as [|q l IH]; intros Hl; [reflexivity|].
    assert (S : forall m k, map (fun _ : nat => ECst (RtoC 1)) (seq k m) = repeat (ECst (RtoC 1)) m) by (induction m; intros k; [reflexivity|]; cbn [seq map repeat]; rewrite IHm; reflexivity).
    rewrite S in IH |- *. cbn [List.length repeat combine map fst snd]. rewrite oseq_cons', IH by (intros; apply Hl; right; assumption).
    unfold interaction_nn, two, op_matmul. rewrite kron_ok; [reflexivity|exact O|discriminate|]. constructor; [constructor; [|constructor]|constructor; [constructor|constructor]]. intros a [<-|[]] [E|[]]. pose proof (Hl q (or_introl eq_refl)). lia. }
  rewrite W; [reflexivity|]. intros q I. apply (pair_bounds n q I).
Qed.
Lemma pairs_in n i j : In (i, j) (pairs_of n) <-> (i < j /\ j < n)%nat.
Proof.
  unfold pairs_of. rewrite in_flat_map. split.
  - intros (a & Ha & H). apply in_map_iff in H as (b & E & Hb). injection E as -> ->. apply in_seq in Ha. apply in_seq in Hb. lia.
  - intros H. exists i. split; [apply in_seq; lia|]. apply in_map_iff. exists j. split; [reflexivity|]. apply in_seq. lia.
Qed.
Lemma full_qubits n q : (2 <= n)%nat -> In q (qubits (full_nn n)) <-> (q < n)%nat.
Proof.
  intros H. unfold full_nn. cbn [qubits]. rewrite in_flat_map. split.
  - intros (b & Hb & Hq). apply in_map_iff in Hb as ([i j] & <- & Hp). apply pairs_in in Hp. cbn in Hq. lia.
  - intros Hq. exists (BScale (BKron [BPrim (PN true) (if Nat.eqb q 0 then 0 else 0)%nat; BPrim (PN true) (if Nat.eqb q 0 then 1 else q)%nat]) (ECst (RtoC 1))). split.
    + apply in_map_iff. exists (0, if Nat.eqb q 0 then 1 else q)%nat. split; [cbn [fst snd]; destruct (Nat.eqb q 0); reflexivity|]. apply pairs_in. destruct (Nat.eqb_spec q 0); lia.
    + cbn [qubits flat_map app]. destruct (Nat.eqb_spec q 0) as [->|]; [left; reflexivity|right; left; reflexivity].
Qed.
Lemma full_nqubits si n : set_order si -> (2 <= n)%nat -> nqubits si (full_nn n) = n.
Proof.
  intros O H. change (nqubits si (full_nn n)) with (max_plus1 (locals (bsup si (full_nn n)))). set (l := locals _).
  assert (L : forall q, In q l <-> (q < n)%nat) by (intros q; unfold l; rewrite in_bsup by exact O; apply full_qubits; exact H). clearbody l.
  assert (S (list_max l) = n).
  { apply Nat.le_antisymm.
    - assert (list_max l <= n - 1)%nat; [|lia]. apply list_max_le, Forall_forall. intros q Hq. apply L in Hq. lia.
    - assert (In (n - 1)%nat l) as I by (apply L; lia). pose proof (proj1 (list_max_le l (list_max l)) (le_n _)) as F. rewrite Forall_forall in F. specialize (F _ I). lia. }
  destruct l as [|a l]; [cbn in *; lia|exact H0].
Qed.

Lemma error_sum (rho : env) n N g : (1 <= n)%nat -> rsum (map (fun l => if Nat.eqb (l + 1) n then 0 else layer_error rho N g) (seq 0 n)) = INR (n - 1) * layer_error rho N g.
Proof.
  intros H. replace (seq 0 n) with (seq 0 (n - 1) ++ [n - 1]%nat) by (rewrite <- (seq_S (n - 1) 0 : seq 0 (S (n - 1)) = seq 0 (n - 1) ++ [n - 1]%nat); f_equal; lia). rewrite map_app, rsum_app. cbn [seq map rsum fold_right]. replace (Nat.eqb (n - 1 + 1) n) with true by (symmetry; apply Nat.eqb_eq; lia).
  assert (F : forall m k, (k + m < n)%nat -> rsum (map (fun l => if Nat.eqb (l + 1) n then 0 else layer_error rho N g) (seq k m)) = INR m * layer_error rho N g).
  { induction m as [|m IH]; intros k Hk; [cbn; ring|]. cbn [seq map rsum fold_right]. rewrite IH by lia. destruct (Nat.eqb_spec (k + 1) n); [lia|]. rewrite S_INR. ring. }
  rewrite F by lia. ring.
Qed.
(** * The circuit *)
Section Circuit.
  Variables (si : list nat -> list nat) (rho : env) (solve : nat -> (nat -> nat -> R) -> list R -> option (list R)) (n : nat) (s : list nat) (g : block) (pb : prim).
  Let N := nqubits si g.
  Hypothesis O : set_order si.
  Hypothesis HS : s = seq 0 n \/ s = rev (seq 0 n).
  Hypothesis HA : ascending_below N si.
  Hypothesis HV : solves solve N.
  Hypothesis HW : solves_all solve N.
  Hypothesis HN : (n <= N)%nat.
  Hypothesis H4 : N <> 4%nat.
  Hypothesis HP : In pb [PZ; PN true].
  Hypothesis HB : two_body rho pb N g.
  Hypothesis HC : forall i j, (i < j)%nat -> (j < n)%nat -> tol < Rabs (coupling rho g i j).
  Let Zb : zorn pb.
  Proof. destruct HP as [<- | [<- | []]]; [left|right]; reflexivity. Qed.
  Lemma transformed l inverse : (l + 1 < n)%nat -> exists d, daqc_transform si rho solve N (BAdd (map (tqg_block s l) (kcs n inverse))) (-1) (Some g) tol true false = Some d.
  Proof.
    intros Hl. assert (HT := tqg_two_body rho n s HS n l inverse (le_n _)).
    apply (C28_total si rho solve N pb PZ g _ (-1) tol false O HA HW tol_pos H4 HP); [left; reflexivity|exact HB|apply tqg_two_body; assumption| | |].
    - destruct (has_term g) eqn:E; [reflexivity|]. pose proof (HC 0 1 ltac:(lia) ltac:(lia)) as F. rewrite (no_term_coupling rho pb N g 0 1 HB E), Rabs_R0 in F. pose proof tol_pos. lra.
    - cbn [has_term]. apply existsb_exists. exists (tqg_block s l (2, 1)%nat). split; [|reflexivity]. apply in_map. unfold kcs. apply in_flat_map. exists 2%nat. split; [|left; reflexivity].
      assert (In 2%nat (seq 2 (n - 1))) by (apply in_seq; lia). destruct inverse; [apply -> in_rev|]; assumption.
    - intros [i j] Hq F. apply pairs_in in Hq. cbn [fst snd] in *. destruct (Nat.lt_ge_cases j n) as [L|L]; [apply HC; lia|].
      rewrite (coupling_outside rho PZ n _ i j HT (or_intror L)), Rabs_R0 in F. pose proof tol_pos. lra.
  Qed.
  Lemma hop_iso l : (l < n)%nat -> iso N (hop s l).
  Proof. intros H. apply iso_unitary, unitary_prim_gate; [|exact I]. pose proof (sq_below n s HS l H). lia. Qed.
  Lemma noisy_close l inverse e E : (l < n)%nat -> 0 <= E -> (forall x, Rabs (e x) <= E) -> close N E (noisy n s inverse l e) (layop n s inverse l).
  Proof.
    intros Hl HE H. rewrite <- (noisy_0 n s inverse l (fun _ => 0)) by reflexivity. unfold noisy. destruct inverse.
    - replace E with (E + 0) by ring. apply close_seq; [lra| |apply close_refl, hop_iso; exact Hl]. apply diag_close; [exact HE|]. intros x. replace (- (layang n s l x + e x) - - (layang n s l x + 0)) with (- e x) by ring. rewrite Rabs_Ropp. apply H.
    - replace E with (0 + E) by ring. apply close_seq; [exact HE|apply close_refl, hop_iso; exact Hl|]. apply diag_close; [exact HE|]. intros x. replace (layang n s l x + e x - (layang n s l x + 0)) with (e x) by ring. apply H.
  Qed.
  Lemma layer_close l inverse : (l < n)%nat -> exists b, qft_layer_sdaqc si rho solve n (Some g) s l inverse = Some b /\
    close N (if Nat.eqb (l + 1) n then 0 else layer_error rho N g) (den rho b) (layop n s inverse l).
  Proof.
    intros Hl. destruct (Nat.eqb_spec (l + 1) n) as [E|E].
    - destruct (last_layer si rho n s O HS solve l inverse g E) as [E1 E2]. eexists. split; [exact E1|]. rewrite E2. apply close_refl. rewrite <- (noisy_0 n s inverse l (fun _ => 0)) by reflexivity.
      unfold noisy. destruct inverse; apply iso_seq; try apply diag_iso; apply hop_iso; exact Hl.
    - destruct (transformed l inverse ltac:(lia)) as [d Ed].
      destruct (C28_error si rho solve N pb PZ g _ (-1) tol false d O HA HV tol_pos HP ltac:(left; reflexivity) HB (tqg_two_body rho n s HS N l inverse HN) Ed) as (ph & e & P0 & Be & Dd). rewrite (P0 eq_refl) in Dd.
      destruct (layer_shape si rho n s O HS solve l inverse g pb N d e ltac:(lia) eq_refl HN HA Zb HB Ed) as (b & Eb & Db).
      { intros psi x. rewrite Dd, Rplus_0_l. reflexivity. }
      exists b. split; [exact Eb|]. rewrite Db. apply noisy_close; [exact Hl|apply error_nonneg|]. intros x. eapply Rle_trans; [apply Be|]. unfold layer_error. rewrite Rabs_left by lra. replace (- -1) with 1 by ring. apply Rle_refl.
  Qed.
  Lemma layer_exact l inverse : (l < n)%nat ->
    (forall t, slice_times rho N pb PZ g (layer_zz n s l) (-1) t -> forall q, In q (pairs_of N) -> t q = 0 \/ tol < Rabs (t q)) ->
    exists b, qft_layer_sdaqc si rho solve n (Some g) s l inverse = Some b /\ den rho b = layop n s inverse l.
  Proof.
    intros Hl Long. destruct (Nat.eq_dec (l + 1) n) as [E|E]; [destruct (last_layer si rho n s O HS solve l inverse g E) as [E1 E2]; eexists; split; eassumption|].
    destruct (transformed l inverse ltac:(lia)) as [d Ed]. pose proof (tqg_coupling rho n s l inverse) as CP.
    destruct (C28_exact si rho solve N pb PZ g _ (-1) tol false d O HA HV tol_pos HP ltac:(left; reflexivity) HB (tqg_two_body rho n s HS N l inverse HN)) as (ph & P0 & Dd); [| |exact Ed|].
    - intros [i j] Hq F. apply pairs_in in Hq. cbn [fst snd] in *. destruct (Nat.lt_ge_cases j n) as [L|L].
      + intros F0. pose proof (HC i j ltac:(lia) L) as F1. rewrite F0, Rabs_R0 in F1. pose proof tol_pos. lra.
      + elim F. apply (coupling_outside rho PZ n); [apply tqg_two_body; [exact HS|lia]|lia].
    - intros t Ht. apply Long. intros q Hq. rewrite (Ht q Hq). rewrite CP by exact Hl. reflexivity.
    - rewrite (P0 eq_refl) in Dd. destruct (layer_shape si rho n s O HS solve l inverse g pb N d (fun _ => 0) ltac:(lia) eq_refl HN HA Zb HB Ed) as (b & Eb & Db).
      { intros psi x. rewrite Dd. reflexivity. }
      exists b. split; [exact Eb|]. rewrite Db. apply noisy_0. reflexivity.
  Qed.
  Lemma layers_close inverse js : (forall l, In l js -> (l < n)%nat) -> exists ls, osequence (map (fun l => qft_layer_sdaqc si rho solve n (Some g) s l inverse) js) = Some ls /\
    close N (rsum (map (fun l => if Nat.eqb (l + 1) n then 0 else layer_error rho N g) js)) (dchain rho ls) (seqs (map (layop n s inverse) js)).
  Proof.
    induction js as [|l js IH]; intros H; [exists []; split; [reflexivity|apply close_refl, iso_id]|].
    destruct IH as (ls & E & D); [intros; apply H; right; assumption|]. destruct (layer_close l inverse (H l (or_introl eq_refl))) as (b & Eb & Db).
    exists (b :: ls). cbn [map]. rewrite oseq_cons', Eb, E. split; [reflexivity|]. cbn [rsum fold_right]. change (dchain rho (b :: ls)) with (seqop (den rho b) (dchain rho ls)).
    change (seqs (layop n s inverse l :: map (layop n s inverse) js)) with (seqop (layop n s inverse l) (seqs (map (layop n s inverse) js))). apply close_seq; [|exact Db|exact D].
    pose proof (error_nonneg rho N g). clear - H0. induction js as [|l js IH]; [cbn; lra|]. cbn [map rsum fold_right]. destruct (Nat.eqb (l + 1) n); lra.
  Qed.
  Lemma layers_exact inverse js : (forall l, In l js -> (l < n)%nat) ->
    (forall l, (l < n)%nat -> forall t, slice_times rho N pb PZ g (layer_zz n s l) (-1) t -> forall q, In q (pairs_of N) -> t q = 0 \/ tol < Rabs (t q)) ->
    exists ls, osequence (map (fun l => qft_layer_sdaqc si rho solve n (Some g) s l inverse) js) = Some ls /\ dchain rho ls = seqs (map (layop n s inverse) js).
  Proof.
    intros H Long. induction js as [|l js IH]; [exists []; split; reflexivity|].
    destruct IH as (ls & E & D); [intros; apply H; right; assumption|]. destruct (layer_exact l inverse (H l (or_introl eq_refl)) (Long l (H l (or_introl eq_refl)))) as (b & Eb & Db).
    exists (b :: ls). cbn [map]. rewrite oseq_cons', Eb, E. split; [reflexivity|]. change (dchain rho (b :: ls)) with (seqop (den rho b) (dchain rho ls)). rewrite Db, D. reflexivity.
  Qed.
  (** The circuit around the layers. *)
  Lemma around (inverse sw : bool) (Rel : Op -> Op -> Prop) (Refl : Rel (revop s) (revop s)) (Rid : Rel idop idop) (ls : list block) :
    osequence (map (fun l => qft_layer_sdaqc si rho solve n (Some g) s l inverse) (if inverse then rev (seq 0 n) else seq 0 n)) = Some ls ->
    exists b : block, (match osequence (map (fun l => qft_layer_sdaqc si rho solve n (Some g) s l inverse) (if inverse then rev (seq 0 n) else seq 0 n)) with
               | None => @None block
               | Some ls => if sw then match qft_swaps n s with None => None | Some ws => Some (BChain (if inverse then ws ++ [BChain ls] else BChain ls :: ws)) end else Some (BChain ls) end) = Some b /\
      exists W, (W = revop s \/ W = idop) /\ Rel W W /\ den rho b = (if inverse then seqop W (dchain rho ls) else seqop (dchain rho ls) W) /\
      qop n s inverse sw = (if inverse then seqop W (seqs (map (layop n s inverse) (rev (seq 0 n)))) else seqop (seqs (map (layop n s inverse) (seq 0 n))) W).
  Proof.
    intros ->. destruct sw.
    - destruct (swaps_den rho n s (s_nodup n s HS) (s_length n s HS)) as (ws & -> & D & _). eexists. split; [reflexivity|]. exists (revop s). split; [left; reflexivity|]. split; [exact Refl|]. destruct inverse; (split; [|reflexivity]).
      + change (dchain rho (ws ++ [BChain ls]) = seqop (revop s) (dchain rho ls)). rewrite dchain_app, D. change (dchain rho [BChain ls]) with (seqop (dchain rho ls) idop). rewrite seqop_id_r. reflexivity.
      + change (seqop (dchain rho ls) (dchain rho ws) = seqop (dchain rho ls) (revop s)). rewrite D. reflexivity.
    - eexists. split; [reflexivity|]. exists idop. split; [right; reflexivity|]. split; [exact Rid|]. destruct inverse; (split; [|reflexivity]); [rewrite seqop_id_l|rewrite seqop_id_r]; reflexivity.
  Qed.
  Lemma revop_iso : iso N (revop s).
  Proof.
    destruct (swaps_den rho n s (s_nodup n s HS) (s_length n s HS)) as (ws & E & D & Q & F). rewrite <- D. change (iso N (den rho (BChain ws))). apply iso_unitary, gate_block_unitary.
    - intros q Hq. apply Q in Hq. apply (s_below n s HS) in Hq. lia.
    - apply chain_ok. exact F.
  Qed.
End Circuit.
Lemma straight_list n support (rin : bool) : straight n support -> exists s0, match support with Some l => l | None => seq 0 n end = s0 /\ (s0 = seq 0 n \/ s0 = rev (seq 0 n)) /\
  ((if rin then rev s0 else s0) = seq 0 n \/ (if rin then rev s0 else s0) = rev (seq 0 n)).
Proof.
  intros H. destruct H as [-> | [-> | ->]]; eexists; (split; [reflexivity|]); (split; [auto|]); destruct rin; auto. left. apply rev_involutive.
Qed.

(** * Theorems *)
(** C23, sDAQC strategy.  For every n, every Ising build Hamiltonian that couples all the qubits (Z Z or N N, possibly on a larger register, not of four
    qubits), forwards and inverse and with every setting of the flags, the circuit is built, and on every state it differs from the digital circuit by at most
    (n - 1) times the error the cut-off causes in one layer. *)
Theorem C23_sdaqc : forall set_iter rho solve n support inverse rin swaps build pb, let N := nqubits set_iter build in
  set_order set_iter -> ascending_below N set_iter -> solves solve N -> solves_all solve N ->
  (1 <= n)%nat -> (n <= N)%nat -> N <> 4%nat -> straight n support -> In pb [PZ; PN true] -> two_body rho pb N build ->
  (forall i j, (i < j)%nat -> (j < n)%nat -> tol < Rabs (coupling rho build i j)) ->
  exists b d, qft_sdaqc set_iter rho solve n support inverse rin swaps (Some build) = Some b /\ qft n support inverse rin swaps DIGITAL = Some d /\
    near N (INR (n - 1) * layer_error rho N build) (den rho b) (den rho d).
Proof.
  intros si rho solve n support inverse rin sw g pb N O HA HV HW H1 HN H4 St HP HB HC.
  destruct (straight_list n support rin St) as (s0 & E0 & H0 & Hs). set (s := if rin then rev s0 else s0) in *.
  assert (ED : qft n support inverse rin sw DIGITAL = qft n (Some s0) inverse rin sw DIGITAL) by (rewrite <- E0; destruct support; reflexivity).
  destruct (qft_den rho n s0 inverse rin sw (s_nodup n s0 H0) (s_length n s0 H0)) as (d & Ed & Dd & _). fold s in Dd.
  destruct (layers_close si rho solve n s g pb O Hs HA HV HW HN H4 HP HB HC inverse (if inverse then rev (seq 0 n) else seq 0 n)) as (ls & E & D).
  { intros l Hl. destruct inverse; [apply in_rev in Hl|]; apply in_seq in Hl; lia. }
  destruct (around si rho solve n s g Hs inverse sw (close N 0)) with (ls := ls) as (b & Eb & W & _ & RW & Db & Dq).
  { apply close_refl. eapply (revop_iso si rho n s); eassumption. } { apply close_refl, iso_id. } { exact E. }
  exists b, d. split; [|split; [rewrite ED; exact Ed|]].
  - unfold qft_sdaqc, qft_of. rewrite E0, (s_length n s0 H0), Nat.ltb_irrefl. fold s. exact Eb.
  - rewrite Dd, Db, Dq.
    assert (K : rsum (map (fun l => if Nat.eqb (l + 1) n then 0 else layer_error rho N g) (if inverse then rev (seq 0 n) else seq 0 n)) = INR (n - 1) * layer_error rho N g).
    { rewrite <- (error_sum rho n N g H1). apply rsum_perm, Permutation_map. destruct inverse; [symmetry; apply Permutation_rev|reflexivity]. }
    fold N in D. rewrite K in D. pose proof (error_nonneg rho N g) as EN. pose proof (pos_INR (n - 1)) as EI. assert (EP : 0 <= INR (n - 1) * layer_error rho N g) by (apply Rmult_le_pos; assumption). destruct inverse.
    + rewrite <- (Rplus_0_l (INR (n - 1) * _)). apply (close_seq N 0 _ _ _ _ _ EP RW D).
    + rewrite <- (Rplus_0_r (INR (n - 1) * _)). apply (close_seq N _ 0 _ _ _ _ (Rle_refl 0) D RW).
Qed.
(** When the cut-off drops no slice the circuit is exactly the Fourier transform. *)
Theorem C23_sdaqc_exact : forall set_iter rho solve n support (inverse rin swaps : bool) build pb, let N := nqubits set_iter build in
  let s0 := match support with Some l => l | None => seq 0 n end in let s := if rin then rev s0 else s0 in
  set_order set_iter -> ascending_below N set_iter -> solves solve N -> solves_all solve N ->
  (1 <= n)%nat -> (n <= N)%nat -> N <> 4%nat -> straight n support -> In pb [PZ; PN true] -> two_body rho pb N build ->
  (forall i j, (i < j)%nat -> (j < n)%nat -> tol < Rabs (coupling rho build i j)) ->
  (forall l, (l < n)%nat -> forall t, slice_times rho N pb PZ build (layer_zz n s l) (-1) t -> forall q, In q (pairs_of N) -> t q = 0 \/ tol < Rabs (t q)) ->
  exists b d, qft_sdaqc set_iter rho solve n support inverse rin swaps (Some build) = Some b /\ qft n support inverse rin swaps DIGITAL = Some d /\ den rho b = den rho d.
Proof.
  intros si rho solve n support inverse rin sw g pb N s00 s O HA HV HW H1 HN H4 St HP HB HC Long.
  destruct (straight_list n support rin St) as (s0 & E0 & H0 & Hs). unfold s, s00 in Long. rewrite E0 in Long. clear s s00. set (s := if rin then rev s0 else s0) in *.
  assert (ED : qft n support inverse rin sw DIGITAL = qft n (Some s0) inverse rin sw DIGITAL) by (rewrite <- E0; destruct support; reflexivity).
  destruct (qft_den rho n s0 inverse rin sw (s_nodup n s0 H0) (s_length n s0 H0)) as (d & Ed & Dd & _). fold s in Dd.
  destruct (layers_exact si rho solve n s g pb O Hs HA HV HW HN H4 HP HB HC inverse (if inverse then rev (seq 0 n) else seq 0 n)) as (ls & E & D); [|exact Long|].
  { intros l Hl. destruct inverse; [apply in_rev in Hl|]; apply in_seq in Hl; lia. }
  destruct (around si rho solve n s g Hs inverse sw eq) with (ls := ls) as (b & Eb & W & _ & RW & Db & Dq); [reflexivity|reflexivity|exact E|].
  exists b, d. split; [|split; [rewrite ED; exact Ed|]].
  - unfold qft_sdaqc, qft_of. rewrite E0, (s_length n s0 H0), Nat.ltb_irrefl. fold s. exact Eb.
  - rewrite Dd, Db, Dq, D. destruct inverse; reflexivity.
Qed.
(** Without a build Hamiltonian the all-to-all N N Hamiltonian of strength 1 is used. *)
Lemma sdaqc_default si rho solve n support inverse rin sw : set_order si -> qft_sdaqc si rho solve n support inverse rin sw None = qft_sdaqc si rho solve n support inverse rin sw (Some (full_nn n)).
Proof.
  intros O. unfold qft_sdaqc, qft_of. destruct (Nat.ltb _ _); [reflexivity|]. f_equal. cbv zeta.
  match goal with |- match osequence (map ?f ?l) with _ => _ end = match osequence (map ?h ?l) with _ => _ end => replace (map f l) with (map h l); [reflexivity|] end.
  apply map_ext. intros l. unfold qft_layer_sdaqc. rewrite default_build by exact O. reflexivity.
Qed.
Theorem C23_sdaqc_default : forall set_iter rho solve n support inverse rin swaps,
  set_order set_iter -> ascending_below n set_iter -> solves solve n -> solves_all solve n -> (2 <= n)%nat -> n <> 4%nat -> straight n support ->
  let P := INR (List.length (pairs_of n)) in
  exists b d, qft_sdaqc set_iter rho solve n support inverse rin swaps None = Some b /\ qft n support inverse rin swaps DIGITAL = Some d /\
    near n (INR (n - 1) * (tol * P * (P + 1))) (den rho b) (den rho d).
Proof.
  intros si rho solve n support inverse rin sw O HA HV HW H1 H4 St P. rewrite sdaqc_default by exact O. pose proof (full_nqubits si n O H1) as EN.
  destruct (C28_default si rho solve n (BAdd []) 0 0 true false O) as (_ & HB & HC).
  assert (EE : layer_error rho n (full_nn n) = tol * P * (P + 1)).
  { unfold layer_error. fold P. f_equal. f_equal. unfold over_pairs, P. assert (K : forall q, In q (pairs_of n) -> Rabs (coupling rho (full_nn n) (fst q) (snd q)) = 1) by (intros q Hq; rewrite HC by exact Hq; apply Rabs_R1).
    clear - K. revert K. generalize (full_nn n). intros g. induction (pairs_of n) as [|q l IH]; intros K; [reflexivity|]. cbn [map rsum fold_right List.length]. rewrite K by (left; reflexivity). rewrite IH by (intros; apply K; right; assumption). rewrite S_INR. ring. }
  rewrite <- EE. pose proof (C23_sdaqc si rho solve n support inverse rin sw (full_nn n) (PN true)) as Q. cbv zeta in Q. rewrite !EN in Q. apply Q; try assumption; try lia; [right; left; reflexivity|].
  intros i j Hi Hj. pose proof (HC (i, j) (proj2 (pairs_in n i j) (conj Hi Hj))) as E. cbn [fst snd] in E. rewrite E, Rabs_R1. unfold tol. lra.
Qed.
(** Four qubits, and any support other than 0 .. n-1 up or down, are refused. *)
Theorem C23_sdaqc_refused : forall set_iter rho solve n support inverse rin swaps build, set_order set_iter ->
  (2 <= n /\ (n = 4%nat /\ build = None \/ exists g, build = Some g /\ nqubits set_iter g = 4%nat))%nat \/ (1 <= n)%nat /\ ~ straight n support ->
  qft_sdaqc set_iter rho solve n support inverse rin swaps build = None.
Proof.
  intros si rho solve n support inverse rin sw build O H. unfold qft_sdaqc, qft_of. destruct (Nat.ltb _ _); [reflexivity|]. cbv zeta. rewrite osequence_none; [reflexivity|].
  apply in_map_iff. exists 0%nat. split; [|assert (In 0%nat (seq 0 n)) by (apply in_seq; lia); destruct inverse; [apply -> in_rev|]; assumption].
  set (s0 := match support with Some l => l | None => seq 0 n end). set (s := if rin then rev s0 else s0). unfold qft_layer_sdaqc. destruct (allowed_support n s) eqn:A; [|reflexivity]. cbn [negb].
  assert (Hs : s = seq 0 n \/ s = rev (seq 0 n)) by (unfold allowed_support in A; destruct (list_eq_dec _ s (seq 0 n)); [left; assumption|]; destruct (list_eq_dec _ s (rev (seq 0 n))); [right; assumption|discriminate]).
  destruct H as [[H2 H]|[_ H]].
  - assert (exists g, match build with Some g => Some g | None => hamiltonian_factory si block_is_qubit_hamiltonian (alltoall n) (Some INN) None SNone SNone None false end = Some g /\ nqubits si g = 4%nat) as (g & -> & Eg).
    { destruct H as [[-> ->] | (g & -> & Eg)]; [|exists g; auto]. exists (full_nn 4). split; [apply default_build; exact O|apply full_nqubits; [exact O|lia]]. }
    cbn [M_Tensor.obind]. cbv zeta. destruct (sqg_ok si (fun _ => 0) n s O Hs 0 inverse ltac:(lia)) as (ks & -> & L & _). rewrite (tqg_ok si n s O Hs 0 inverse) by lia. cbn [M_Tensor.obind].
    destruct (nth_error s (0 + 1 - 1)); [|reflexivity]. cbn [M_Tensor.obind]. destruct ks as [|k ks]; [cbn in L; lia|]. cbn [map]. rewrite Eg, C28_rejects by (left; reflexivity). reflexivity.
  - elim H. unfold straight. destruct support as [s1|]; [|left; reflexivity]. right. unfold s, s0 in Hs. destruct rin.
    + destruct Hs as [Hs | Hs]; apply (f_equal (@rev nat)) in Hs; rewrite rev_involutive in Hs; [right|left; rewrite rev_involutive in Hs]; f_equal; exact Hs.
    + destruct Hs as [Hs | Hs]; [left|right]; f_equal; exact Hs.
Qed.
(** The entries of the matrix. *)
Lemma ket_rev s c : ket (rev s) c = ket s (rev c).
Proof.
  extensionality x. unfold ket. rewrite map_rev. replace (eqbits (rev (map x s)) c) with (eqbits (map x s) (rev c)); [reflexivity|].
  destruct (eqbits (map x s) (rev c)) eqn:E, (eqbits (rev (map x s)) c) eqn:F; try reflexivity; exfalso.
  - apply eqbits_true in E. apply eqbits_false in F. apply F. rewrite E. apply rev_involutive.
  - apply eqbits_false in E. apply eqbits_true in F. apply E. rewrite <- F. symmetry. apply rev_involutive.
Qed.
Lemma straight_entry n s e A B r c : s = seq 0 n \/ s = rev (seq 0 n) -> near n e A B -> List.length r = n -> List.length c = n -> Cmod (matof s A r c - matof s B r c)%C <= e.
Proof.
  intros Hs H Hr Hc. assert (exists r' c', List.length r' = n /\ List.length c' = n /\ forall A, matof s A r c = amps n (A (ket (seq 0 n) c')) r') as (r' & c' & Hr' & Hc' & E).
  { destruct Hs as [-> | ->]; [exists r, c; auto|]. exists (rev r), (rev c). rewrite !rev_length. split; [exact Hr|]. split; [exact Hc|]. intros A0. unfold matof, amps. rewrite ket_rev, upds_rev by (rewrite ?seq_length; try apply seq_NoDup; exact Hr). reflexivity. }
  rewrite !E. specialize (H (ket (seq 0 n) c')). replace (norm n (ket (seq 0 n) c')) with 1 in H; [rewrite Rmult_1_r in H|].
  - eapply Rle_trans; [|exact H]. apply (norm_amp n (fun x => (A (ket (seq 0 n) c') x - B (ket (seq 0 n) c') x)%C) r'). apply in_bits_iff. exact Hr'.
  - unfold norm. rewrite (normalised_ket n c' Hc'). cbn [fst RtoC]. symmetry. apply sqrt_1.
Qed.
(** Every entry of the matrix of the circuit is within the same bound of the entry of the Fourier matrix. *)
Theorem C23_sdaqc_matrix : forall set_iter rho solve n support (rin swaps : bool),
  set_order set_iter -> ascending_below n set_iter -> solves solve n -> solves_all solve n -> (2 <= n)%nat -> n <> 4%nat -> straight n support ->
  let P := INR (List.length (pairs_of n)) in let s0 := match support with Some l => l | None => seq 0 n end in
  exists b, qft_sdaqc set_iter rho solve n support false rin swaps None = Some b /\
    forall r c, List.length r = n -> List.length c = n ->
      Cmod (matof (if rin then rev s0 else s0) (den rho b) r c - dft n (bits_to_nat (if swaps then r else rev r)) (bits_to_nat c))%C <= INR (n - 1) * (tol * P * (P + 1)).
Proof.
  intros si rho solve n support rin sw O HA HV HW H1 H4 St P s00.
  destruct (C23_sdaqc_default si rho solve n support false rin sw O HA HV HW H1 H4 St) as (b & d & Eb & Ed & Nr). exists b. split; [exact Eb|]. intros r c Hr Hc.
  destruct (straight_list n support rin St) as (s0 & E0 & H0 & Hs). unfold s00. rewrite E0.
  assert (ED : qft n support false rin sw DIGITAL = qft n (Some s0) false rin sw DIGITAL) by (rewrite <- E0; destruct support; reflexivity).
  destruct (C23_matrix n s0 rin sw (s_nodup n s0 H0) (s_length n s0 H0)) as (d' & Ed' & _ & M). assert (d' = d) by congruence. subst d'.
  rewrite <- (M rho r c Hr Hc). apply (straight_entry n _ _ _ _ r c Hs Nr Hr Hc).
Qed.

(** * Instances *)
(** Three qubits, default build Hamiltonian: every entry is within 2.4e-7 of the Fourier matrix. *)
Example C23_sdaqc_case : forall rho, exists b, qft_sdaqc asc rho (exact_solver 3) 3 None false true true None = Some b /\
  forall r c, List.length r = 3%nat -> List.length c = 3%nat -> Cmod (matof [2; 1; 0]%nat (den rho b) r c - dft 3 (bits_to_nat r) (bits_to_nat c))%C <= 24 / 10 ^ 8.
Proof.
  intros rho. pose proof (exact_solver_ok 3 ltac:(discriminate)) as [S1 S2].
  destruct (C23_sdaqc_matrix asc rho (exact_solver 3) 3 None true true asc_order (proj1 ex_orders 3%nat) S1 S2 ltac:(lia) ltac:(lia) ltac:(left; reflexivity)) as (b & E & M).
  exists b. split; [exact E|]. intros r c Hr Hc. eapply Rle_trans; [exact (M r c Hr Hc)|]. change (List.length (pairs_of 3)) with 3%nat. unfold tol. cbn [INR Nat.sub]. lra.
Qed.
(** Two qubits: no slice is dropped, the circuit is exactly the Fourier transform, and so is its inverse. *)
Example C23_sdaqc_exact_case : forall rho inverse, exists b d, qft_sdaqc asc rho (exact_solver 2) 2 None inverse false true None = Some b /\ qft 2 None inverse false true DIGITAL = Some d /\ den rho b = den rho d.
Proof.
  intros rho inverse. rewrite sdaqc_default by exact asc_order. pose proof (exact_solver_ok 2 ltac:(discriminate)) as [S1 S2]. pose proof (full_nqubits asc 2 asc_order (le_n _)) as EN.
  destruct (C28_default asc rho (exact_solver 2) 2 (BAdd []) 0 0 true false asc_order) as (_ & HB & HC). pose proof (HC (0, 1)%nat (or_introl eq_refl)) as C1. cbn [fst snd] in C1.
  pose proof (C23_sdaqc_exact asc rho (exact_solver 2) 2 None inverse false true (full_nn 2) (PN true)) as Q. cbv zeta in Q. rewrite EN in Q.
  apply Q; try assumption; try lia; [exact asc_order|exact (proj1 ex_orders 2%nat)|left; reflexivity|right; left; reflexivity| |].
  - intros i j Hi Hj. assert (i = 0%nat) as -> by lia. assert (j = 1%nat) as -> by lia. rewrite C1, Rabs_R1. unfold tol. lra.
  - intros l Hl t Ht q [<-|[]]. specialize (Ht (0, 1)%nat (or_introl eq_refl)). cbn [fst snd] in Ht. rewrite C1 in Ht. destruct (Req_EM_T 1 0) as [X|_]; [lra|].
    unfold over_pairs, flips, zz_part, layer_zz in Ht. destruct l as [|[|l]]; [| |lia]; cbn in Ht.
    + right. assert (E : t (0, 1)%nat = - (PI / 2)) by lra. rewrite E, Rabs_Ropp, Rabs_right; [|pose proof PI_RGT_0; lra]. pose proof PI2_1. unfold tol. lra.
    + left. lra.
Qed.
(** The hypotheses on the build Hamiltonian hold for the default one. *)
Example C23_sdaqc_hyps : forall rho, nqubits asc (full_nn 5) = 5%nat /\ two_body rho (PN true) 5 (full_nn 5) /\ straight 5 (Some [4; 3; 2; 1; 0]%nat) /\
  forall i j, (i < j)%nat -> (j < 5)%nat -> tol < Rabs (coupling rho (full_nn 5) i j).
Proof.
  intros rho. destruct (C28_default asc rho (exact_solver 5) 5 (BAdd []) 0 0 true false asc_order) as (_ & HB & HC).
  split; [apply full_nqubits; [exact asc_order|lia]|]. split; [exact HB|]. split; [right; right; reflexivity|]. intros i j Hi Hj. pose proof (HC (i, j) (proj2 (pairs_in 5 i j) (conj Hi Hj))) as E. cbn [fst snd] in E. rewrite E, Rabs_R1. unfold tol. lra.
Qed.
Print Assumptions C23_sdaqc.
Print Assumptions C23_sdaqc_exact.
Print Assumptions C23_sdaqc_default.
Print Assumptions C23_sdaqc_matrix.
Print Assumptions C23_sdaqc_refused.
