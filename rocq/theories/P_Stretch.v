(** C58: zero-noise extrapolation by pulse stretching. *)
From Coq Require Import String Reals List Arith Bool Lia Lra FunctionalExtensionality Permutation.
From Coquelicot Require Import Coquelicot.
From Coq Require Import List.
From Verif Require M_Register P_Register M_Addressing M_Zne P_Zne.
From Verif Require Import S_Ops L_Ops M_QubitSupport M_Block S_Den L_Den L_Gates M_BlockOps M_Tensor M_Transpile L_ExpMul L_ExpOp S_PSR P_PSR S_State L_Inner P_States P_Operators P_Qft L_Diag P_Hea P_Decompose
  M_Rydberg P_Rydberg M_Stretch.
Import ListNotations.
Open Scope R_scope.

(** * Specification *)
(** Circuits of rotations and digital blocks: no free evolution, no AnalogKron. *)
Fixpoint stretchable (t : tree) : Prop :=
  match t with
  | TRot _ om de _ _ _ => om <> 0 \/ de <> 0
  | TLeaf _ => True
  | TInt _ _ _ | TAKron _ => False
  | TAChain bs | TChain bs | TKron bs | TAdd bs => fold_right (fun b k => stretchable b /\ k) True bs
  end.
Definition apart (r : M_Register.register) : Prop := forall a b, In a r -> In b r -> (fst a < fst b)%nat -> M_Register.dist (snd a) (snd b) <> 0.
(** The interaction, relative to the drive, that a circuit stretched by [s] feels. *)
Definition weakened (k : coupling) (c s : R) : R := match k with NN => c / s ^ 5 | XY => c / s ^ 2 end.
(** A simulator without noise: the expectation value of the observable in the state the circuit prepares. *)
Definition ideal (rho : env) (d : device) (c : R) (measure : M_Register.register -> tree -> block -> list R) : Prop :=
  forall r t E o, means rho d c r t E -> measure r t o = [fst (expval (length r) (E (ket (seq 0 (length r)) (repeat false (length r)))) (den rho o))].
Definition exact_value (rho : env) (n : nat) (E : Op) (o : block) : R := fst (expval n (E (ket (seq 0 n) (repeat false n))) (den rho o)).

(** * Proofs *)
Lemma evolves_same H1 t1 H2 t2 E : scaleop (RtoC t1) H1 = scaleop (RtoC t2) H2 -> evolves H1 t1 E -> evolves H2 t2 E.
Proof.
  intros Q V psi x. specialize (V psi x). cbv zeta in *.
  assert (K : scaleop (- Ci * RtoC t1)%C H1 = scaleop (- Ci * RtoC t2)%C H2).
  { rewrite <- !scaleop_scale. rewrite Q. reflexivity. }
  rewrite <- K. exact V.
Qed.
Lemma scaled_fst k r : map fst (P_Register.scaled k r) = map fst r.
Proof. unfold P_Register.scaled. rewrite map_map. reflexivity. Qed.
Lemma driven_scaled k r s : driven (P_Register.scaled k r) s = driven r s.
Proof. destruct s; cbn [driven]; [apply scaled_fst|reflexivity]. Qed.
Lemma drive_scaled om de ph qs s : s <> 0 -> scaleop (RtoC s) (H_drive (om / s) (de / s) ph qs) = H_drive om de ph qs.
Proof.
  intros Hs. unfold H_drive. rewrite sum_of_scale. apply sum_of_ext. intros q _. extensionality psi. extensionality x. unfold scaleop, addop.
  assert (E1 : (om / s / 2 * cos ph = / s * (om / 2 * cos ph))) by (field; exact Hs). assert (E2 : (- (om / s / 2 * sin ph) = / s * - (om / 2 * sin ph))) by (field; exact Hs).
  assert (E3 : (- (de / s) = / s * - de)) by (field; exact Hs). rewrite E1, E2, E3, (RtoC_mult (/ s) (om / 2 * cos ph)), (RtoC_mult (/ s) (- (om / 2 * sin ph))), (RtoC_mult (/ s) (- de)). assert (K : (RtoC s * RtoC (/ s))%C = RtoC 1) by (rewrite <- RtoC_mult; f_equal; field; exact Hs).
  set (A := RtoC (om / 2 * cos ph)). set (B := RtoC (- (om / 2 * sin ph))). set (D := RtoC (- de)).
  transitivity ((RtoC s * RtoC (/ s)) * (A * X_ q psi x + (B * Y_ q psi x + D * N_ q psi x)))%C ; [ring|]. rewrite K, Cmult_1_l. reflexivity.
Qed.
Lemma int_scaled k c r s : 0 < s -> apart r -> scaleop (RtoC s) (H_int k c (P_Register.scaled s r)) = H_int k (weakened k c s) r.
Proof.
  intros Hs Ap. unfold H_int. unfold P_Register.scaled at 1. rewrite sum_of_map, sum_of_scale. apply sum_of_ext. intros a Ia. unfold P_Register.scaled. rewrite sum_of_map, sum_of_scale. apply sum_of_ext. intros b Ib. cbn [fst].
  unfold M_Register.point in *. destruct (Nat.ltb (fst a) (fst b)) eqn:L; [apply Nat.ltb_lt in L|extensionality psi; extensionality x; unfold scaleop, zeroop; apply Cmult_0_r].
  unfold pair_term. cbn [fst snd]. rewrite P_Register.dist_scale, Rabs_right by lra. pose proof (Ap a b Ia Ib L) as Nz. set (R0 := M_Register.dist (snd a) (snd b)) in *.
  destruct k; cbn [weakened]; rewrite scaleop_scale, <- RtoC_mult; f_equal; f_equal; change (M_Register.dist (snd a) (snd b)) with R0; field; split; try lra; exact Nz.
Qed.
Lemma rot_scaled d c r s om de ph sup ap ap' dur E : d_pattern d = None -> 0 < s -> apart r ->
  drives d c (P_Register.scaled s r) (dur * s) (om / s) (de / s) ph sup ap E <-> drives d (weakened (d_coupling d) c s) r dur om de ph sup ap' E.
Proof.
  intros P Hs Ap. unfold drives, H_background. rewrite P, driven_scaled.
  assert (Q : scaleop (RtoC (dur * s / 1000)) (addop (addop (H_int (d_coupling d) c (P_Register.scaled s r)) zeroop) (H_drive (om / s) (de / s) ph (driven r sup))) =
              scaleop (RtoC (dur / 1000)) (addop (addop (H_int (d_coupling d) (weakened (d_coupling d) c s) r) zeroop) (H_drive om de ph (driven r sup)))).
  { rewrite <- (int_scaled _ c r s Hs Ap), <- (drive_scaled om de ph (driven r sup) s) by lra. replace (dur * s / 1000) with (dur / 1000 * s) by field. rewrite RtoC_mult.
    extensionality psi. extensionality x. unfold scaleop, addop, zeroop. rewrite !Cplus_0_r. ring. }
  split; apply evolves_same; [exact Q|symmetry; exact Q].
Qed.

(** C58.  Stretching works on every circuit of rotations; without noise and addressing pattern the stretched circuit on the stretched register is the
    original circuit with the interaction divided by s^5 (s^2 for XY). *)
Theorem C58_stretch : forall rho d c r s t, d_pattern d = None -> 0 < s -> apart r -> stretchable t ->
  exists t', stretch_block s t = Some t' /\ forall E, means rho d c (M_Register.rescale_coords r s) t' E <-> means rho d (weakened (d_coupling d) c s) r t E.
Proof.
  intros rho d c r s t P Hs Ap. rewrite P_Register.rescale_scaled.
  assert (LIST : forall bs, Forall (fun t => stretchable t -> exists t', stretch_block s t = Some t' /\ forall E, means rho d c (P_Register.scaled s r) t' E <-> means rho d (weakened (d_coupling d) c s) r t E) bs ->
    fold_right (fun b k => stretchable b /\ k) True bs -> exists bs', osequence (map (stretch_block s) bs) = Some bs' /\
    Forall2 (fun t' t => forall E, means rho d c (P_Register.scaled s r) t' E <-> means rho d (weakened (d_coupling d) c s) r t E) bs' bs).
  { induction 1 as [|b bs Hb _ IH]; intros F; [exists []; split; [reflexivity|constructor]|]. destruct F as [F1 F2]. destruct (Hb F1) as (b' & E1 & M1). destruct (IH F2) as (bs' & E2 & M2).
    exists (b' :: bs'). cbn [map]. rewrite oseq_cons, E1, E2. split; [reflexivity|constructor; assumption]. }
  assert (CHAIN : forall bs' bs, Forall2 (fun t' t => forall E, means rho d c (P_Register.scaled s r) t' E <-> means rho d (weakened (d_coupling d) c s) r t E) bs' bs -> forall E,
    means rho d c (P_Register.scaled s r) (TChain bs') E <-> means rho d (weakened (d_coupling d) c s) r (TChain bs) E).
  { intros bs' bs F. induction F as [|b' b bs' bs Hb F IH]; intros E; [reflexivity|].
    split; intros (A & B & H1 & H2 & ->); exists A, B; (split; [apply Hb; exact H1|]); (split; [apply IH; exact H2|reflexivity]). }
  induction t as [dur u ap|dur om de ph u ap|bs IH|bs IH|b|bs IH|bs IH|bs IH] using tree_ind'; cbn [stretchable]; intros H; try contradiction.
  - cbn [stretch_block mutate_params]. unfold AnalogRot. exists (TRot (dur * s) (om / s) (de / s) ph u true). split.
    + destruct (Req_EM_T (om / s) 0) as [Z|Z]; [|reflexivity]. destruct (Req_EM_T (de / s) 0) as [Y|Y]; [|reflexivity]. exfalso.
      destruct H as [H|H]; apply H; [replace om with (om / s * s) by (field; lra); rewrite Z; ring|replace de with (de / s * s) by (field; lra); rewrite Y; ring].
    + intros E. cbn [means]. apply rot_scaled; assumption.
  - destruct (LIST bs IH H) as (bs' & E & F). exists (TAChain bs'). cbn [stretch_block]. rewrite E. split; [reflexivity|]. exact (CHAIN bs' bs F).
  - exists (TLeaf b). split; [reflexivity|]. intros E. reflexivity.
  - destruct (LIST bs IH H) as (bs' & E & F). exists (TChain bs'). cbn [stretch_block]. rewrite E. split; [reflexivity|]. exact (CHAIN bs' bs F).
  - destruct (LIST bs IH H) as (bs' & E & F). exists (TKron bs'). cbn [stretch_block]. rewrite E. split; [reflexivity|]. exact (CHAIN bs' bs F).
  - destruct (LIST bs IH H) as (bs' & E & F). exists (TAdd bs'). cbn [stretch_block]. rewrite E. split; [reflexivity|]. clear E IH H.
    intros E. cbn [means]. revert E. induction F as [|b' b bs' bs Hb F IH]; intros E; [reflexivity|].
    split; intros (A & B & H1 & H2 & ->); exists A, B; (split; [apply Hb; exact H1|]); (split; [apply IH; exact H2|reflexivity]).
Qed.

Lemma stretched_runs rho d r t ss : d_pattern d = None -> apart r -> stretchable t -> Forall (fun s => 0 < s) ss -> exists ts,
  osequence (map (fun s => option_map (fun t' => (M_Register.rescale_coords r s, t')) (stretch_block s t)) ss) = Some (map (fun st => (M_Register.rescale_coords r (fst st), snd st)) (combine ss ts)) /\
  List.length ts = List.length ss /\ Forall (fun st => stretch_block (fst st) t = Some (snd st) /\ forall c E, means rho d c (M_Register.rescale_coords r (fst st)) (snd st) E <-> means rho d (weakened (d_coupling d) c (fst st)) r t E) (combine ss ts).
Proof.
  intros P Ap St F. induction F as [|s ss Hs F IH]; [exists []; repeat split; constructor|]. destruct IH as (ts & E & L & M). destruct (C58_stretch rho d 0 r s t P Hs Ap St) as (t' & E' & _).
  exists (t' :: ts). cbn [map combine]. rewrite oseq_cons, E', E. split; [reflexivity|]. split; [cbn; f_equal; exact L|]. constructor; [|exact M]. cbn [fst snd]. split; [exact E'|]. intros c. destruct (C58_stretch rho d c r s t P Hs Ap St) as (t'' & E'' & M'').
  assert (t'' = t') by congruence. subst. exact M''.
Qed.
(** A polynomial dependence on the stretch, of degree below the number of stretches, is extrapolated exactly to the value without noise: whatever the simulator,
    if stretching by s gives p(s) then the result is p(0). *)
Theorem C58_extrapolates : forall {O} polyfit (measure : M_Register.register -> tree -> O -> list R) r t observables stretches (curves : O -> list (list R)),
  stretches <> [] -> NoDup stretches -> Forall (fun s => 0 < s) stretches -> P_Zne.polyfit_ok polyfit stretches -> stretchable t ->
  (forall o p, In o observables -> In p (curves o) -> (List.length p <= List.length stretches)%nat) ->
  (forall s t' o, In s stretches -> stretch_block s t = Some t' -> In o observables -> measure (M_Register.rescale_coords r s) t' o = map (fun p => P_Zne.peval p s) (curves o)) ->
  pulse_experiment polyfit measure r t observables stretches = Some (map (fun o => map (fun p => P_Zne.peval p 0) (curves o)) observables).
Proof.
  intros O polyfit measure r t obs ss curves Hne Hn Hp Hf St Hd Hm. unfold pulse_experiment.
  assert (ALL : exists ts, osequence (map (fun s => option_map (fun t' => (M_Register.rescale_coords r s, t')) (stretch_block s t)) ss) = Some (map (fun st => (M_Register.rescale_coords r (fst st), snd st)) (combine ss ts)) /\
     List.length ts = List.length ss /\ Forall (fun st => stretch_block (fst st) t = Some (snd st)) (combine ss ts)).
  { clear - Hp St. induction Hp as [|s ss Hs F IH]; [exists []; repeat split; constructor|]. destruct IH as (ts & E & L & M).
    destruct (C58_stretch (fun _ => 0) (Device NN 0 0 None) 0 [] s t eq_refl Hs (fun a b H => match H with end) St) as (t' & E' & _).
    exists (t' :: ts). cbn [map combine]. rewrite oseq_cons, E', E. split; [reflexivity|]. split; [cbn; f_equal; exact L|]. constructor; assumption. }
  destruct ALL as (ts & E & L & M). rewrite E. cbn [obind].
  replace (map (fun o => map (fun run => measure (fst run) (snd run) o) (map (fun st => (M_Register.rescale_coords r (fst st), snd st)) (combine ss ts))) obs) with (map (P_Zne.measured ss) (map curves obs)).
  - rewrite P_Zne.C19_zne; try assumption; [rewrite map_map; reflexivity|]. intros cv p H Hp'. apply in_map_iff in H as (o & <- & Ho). exact (Hd o p Ho Hp').
  - rewrite map_map. apply map_ext_in. intros o Ho. rewrite map_map. cbn [fst snd]. unfold P_Zne.measured.
    assert (K : forall ss' ts', List.length ts' = List.length ss' -> incl ss' ss -> Forall (fun st => stretch_block (fst st) t = Some (snd st)) (combine ss' ts') ->
      map (fun x => map (fun p => P_Zne.peval p x) (curves o)) ss' = map (fun st => measure (M_Register.rescale_coords r (fst st)) (snd st) o) (combine ss' ts')).
    { induction ss' as [|s ss' IH]; intros [|t' ts'] L' I' F'; try discriminate; [reflexivity|]. cbn [combine] in *. inversion F' as [|? ? F1 F2]. subst. cbn [map fst snd] in *.
      rewrite (Hm s t' o (I' s (or_introl eq_refl)) F1 Ho). f_equal. apply IH; [injection L'; auto|intros z Hz; apply I'; right; exact Hz|exact F2]. }
    apply K; [exact L|intros z Hz; exact Hz|exact M].
Qed.
Lemma peval_const v s : P_Zne.peval [v] s = v.
Proof. cbn. ring. Qed.
Lemma alone_int k c c' r : (List.length r <= 1)%nat -> H_int k c r = H_int k c' r.
Proof.
  intros L. destruct r as [|a [|b r]]; [reflexivity| |cbn in L; lia]. unfold H_int, sum_of. cbn [fold_right]. rewrite Nat.ltb_irrefl. reflexivity.
Qed.
Lemma means_int rho d c c' r t E : H_int (d_coupling d) c r = H_int (d_coupling d) c' r -> means rho d c r t E -> means rho d c' r t E.
Proof.
  intros Q. assert (B : forall ap, H_background d c r ap = H_background d c' r ap) by (intros ap; unfold H_background; rewrite Q; reflexivity).
  revert E. induction t as [dur u ap|dur om de ph u ap|bs IH|bs IH|b|bs IH|bs IH|bs IH] using tree_ind'; cbn [means]; intros E H.
  - rewrite <- B. exact H.
  - unfold drives in *. rewrite <- B. exact H.
  - revert E H. induction IH as [|b bs Hb _ IHb]; intros E H; [exact H|]. destruct H as (A1 & A2 & H1 & H2 & ->). exists A1, A2. split; [apply Hb, H1|]. split; [apply IHb, H2|reflexivity].
  - clear IH. revert E H. induction bs as [|b bs IHb]; intros E H; [exact H|]. destruct b; try (apply IHb; exact H). destruct H as (A1 & A2 & H1 & H2 & ->). exists A1, A2.
    split; [unfold drives in *; rewrite <- B; exact H1|]. split; [apply IHb, H2|reflexivity].
  - exact H.
  - revert E H. induction IH as [|b bs Hb _ IHb]; intros E H; [exact H|]. destruct H as (A1 & A2 & H1 & H2 & ->). exists A1, A2. split; [apply Hb, H1|]. split; [apply IHb, H2|reflexivity].
  - revert E H. induction IH as [|b bs Hb _ IHb]; intros E H; [exact H|]. destruct H as (A1 & A2 & H1 & H2 & ->). exists A1, A2. split; [apply Hb, H1|]. split; [apply IHb, H2|reflexivity].
  - revert E H. induction IH as [|b bs Hb _ IHb]; intros E H; [exact H|]. destruct H as (A1 & A2 & H1 & H2 & ->). exists A1, A2. split; [apply Hb, H1|]. split; [apply IHb, H2|reflexivity].
Qed.
(** Without noise and without interaction (a single atom, or a vanishing coefficient) the result is the exact expectation value. *)
Theorem C58_ideal : forall rho d c measure polyfit r t E observables stretches,
  ideal rho d c measure -> d_pattern d = None -> (List.length r <= 1)%nat \/ c = 0 -> apart r -> stretchable t -> means rho d c r t E ->
  stretches <> [] -> NoDup stretches -> Forall (fun s => 0 < s) stretches -> P_Zne.polyfit_ok polyfit stretches ->
  pulse_experiment polyfit measure r t observables stretches = Some (map (fun o => [exact_value rho (List.length r) E o]) observables).
Proof.
  intros rho d c measure polyfit r t E obs ss Id P Al Ap St M Hne Hn Hp Hf.
  rewrite (C58_extrapolates polyfit measure r t obs ss (fun o => [[exact_value rho (List.length r) E o]]) Hne Hn Hp Hf St).
  - f_equal. apply map_ext. intros o. cbn [map]. rewrite peval_const. reflexivity.
  - intros o p _ [<-|[]]. destruct ss; [contradiction|cbn; lia].
  - intros s t' o Is Et _. rewrite Forall_forall in Hp. pose proof (Hp s Is) as Hs. destruct (C58_stretch rho d c r s t P Hs Ap St) as (t'' & E2 & K). assert (t'' = t') by congruence. subst t''.
    rewrite (Id _ _ E o); [cbn [map]; rewrite peval_const; unfold exact_value; rewrite P_Register.rescale_scaled; unfold P_Register.scaled; rewrite map_length; reflexivity|].
    apply K. apply (means_int rho d c); [|exact M]. destruct Al as [Al | ->]; [apply alone_int; exact Al|]. f_equal. destruct (d_coupling d); cbn [weakened]; unfold Rdiv; rewrite Rmult_0_l; reflexivity.
Qed.
(** A circuit with a free evolution (AnalogInteraction) cannot be stretched: the code asks for parameters the block does not have. *)
Fixpoint waits (t : tree) : Prop :=
  match t with
  | TInt _ _ _ => True
  | TAChain bs | TChain bs | TKron bs | TAdd bs => fold_right (fun b k => waits b \/ k) False bs
  | _ => False
  end.
Theorem C58_wait_refuted : forall {O} polyfit (measure : M_Register.register -> tree -> O -> list R) r t observables stretches,
  waits t -> stretches <> [] -> pulse_experiment polyfit measure r t observables stretches = None.
Proof.
  intros O polyfit measure r t obs ss W Hne.
  assert (N : forall s, stretch_block s t = None).
  { intros s. induction t as [dur u ap|dur om de ph u ap|bs IH|bs IH|b|bs IH|bs IH|bs IH] using tree_ind'; cbn [waits] in W; try contradiction; cbn [stretch_block]; [reflexivity| | | |].
    all: replace (osequence (map (stretch_block s) bs)) with (@None (list tree)); [reflexivity|]; symmetry; apply osequence_none; induction IH as [|b bs Hb _ IHb]; [contradiction|]; cbn [fold_right] in W; cbn [map]; destruct W as [W|W]; [left; apply Hb, W|right; apply IHb, W]. }
  unfold pulse_experiment. destruct ss as [|s ss]; [contradiction|]. cbn [map]. rewrite N. reflexivity.
Qed.
(** The rotations of an AnalogKron are not stretched, although the register is: the circuits run at the different stretches have the same pulses. *)
Theorem C58_kron_refuted : forall {O} polyfit (measure : M_Register.register -> tree -> O -> list R) r bs observables stretches,
  pulse_experiment polyfit measure r (TAKron bs) observables stretches =
  M_Zne.zne polyfit stretches (map (fun o => map (fun s => measure (M_Register.rescale_coords r s) (TAKron bs) o) stretches) observables).
Proof.
  intros O polyfit measure r bs obs ss. unfold pulse_experiment.
  assert (E : osequence (map (fun s => option_map (fun t' => (M_Register.rescale_coords r s, t')) (stretch_block s (TAKron bs))) ss) = Some (map (fun s => (M_Register.rescale_coords r s, TAKron bs)) ss)).
  { induction ss as [|s ss IH]; [reflexivity|]. cbn [map]. rewrite oseq_cons, IH. reflexivity. }
  rewrite E. cbn [obind]. f_equal. apply map_ext. intros o. rewrite map_map. reflexivity.
Qed.

(** * A simulator without noise *)
Definition limit (H : Op) (t : R) : Op := fun psi x =>
  let term k := (RtoC (/ INR (fact k)) * power (scaleop (- Ci * RtoC t) H) k psi x)%C in (Series (fun k => fst (term k)), Series (fun k => snd (term k))).
Lemma limit_ok H t E : evolves H t E -> E = limit H t.
Proof.
  intros V. extensionality psi. extensionality x. destruct (V psi x) as [A B]. unfold limit. rewrite (is_series_unique _ _ A), (is_series_unique _ _ B). apply surjective_pairing.
Qed.
Section Simulator.
  Variables (rho : env) (d : device) (c : R) (r : M_Register.register).
  Definition pulse (dur om de ph : R) (s : support) (ap : bool) : Op := limit (addop (H_background d c r ap) (H_drive om de ph (driven r s))) (dur / 1000).
  Fixpoint simulate (t : tree) : Op :=
    match t with
    | TInt dur _ ap => limit (H_background d c r ap) (dur / 1000)
    | TRot dur om de ph s ap => pulse dur om de ph s ap
    | TLeaf b => den rho b
    | TAChain bs | TChain bs | TKron bs => fold_right (fun b k => seqop (simulate b) k) idop bs
    | TAdd bs => fold_right (fun b k => addop (simulate b) k) zeroop bs
    | TAKron bs => fold_right (fun b k => match b with TRot dur om de ph s ap => seqop (pulse dur om de ph s ap) k | _ => k end) idop bs
    end.
  Lemma simulate_ok t : forall E, means rho d c r t E -> E = simulate t.
  Proof.
    induction t as [dur u ap|dur om de ph u ap|bs IH|bs IH|b|bs IH|bs IH|bs IH] using tree_ind'; cbn [means simulate]; intros E H.
    - apply limit_ok, H.
    - apply limit_ok, H.
    - revert E H. induction IH as [|b bs Hb _ IHb]; intros E H; [exact H|]. destruct H as (A1 & A2 & H1 & H2 & ->). cbn [fold_right]. rewrite (Hb _ H1), (IHb _ H2). reflexivity.
    - clear IH. revert E H. induction bs as [|b bs IHb]; intros E H; [exact H|]. destruct b; try (apply IHb; exact H). destruct H as (A1 & A2 & H1 & H2 & ->). cbn [fold_right].
      rewrite (limit_ok _ _ _ H1), (IHb _ H2). reflexivity.
    - exact H.
    - revert E H. induction IH as [|b bs Hb _ IHb]; intros E H; [exact H|]. destruct H as (A1 & A2 & H1 & H2 & ->). cbn [fold_right]. rewrite (Hb _ H1), (IHb _ H2). reflexivity.
    - revert E H. induction IH as [|b bs Hb _ IHb]; intros E H; [exact H|]. destruct H as (A1 & A2 & H1 & H2 & ->). cbn [fold_right]. rewrite (Hb _ H1), (IHb _ H2). reflexivity.
    - revert E H. induction IH as [|b bs Hb _ IHb]; intros E H; [exact H|]. destruct H as (A1 & A2 & H1 & H2 & ->). cbn [fold_right]. rewrite (Hb _ H1), (IHb _ H2). reflexivity.
  Qed.
End Simulator.
Definition simulator (rho : env) (d : device) (c : R) (r : M_Register.register) (t : tree) (o : block) : list R := [exact_value rho (List.length r) (simulate rho d c r t) o].
Lemma simulator_ideal rho d c : ideal rho d c (simulator rho d c).
Proof. intros r t E o M. unfold simulator, exact_value. rewrite <- (simulate_ok rho d c r t E M). reflexivity. Qed.

(** * Two interacting atoms *)
Definition two_atoms : M_Register.register := [(0%nat, (0, 0)); (1%nat, (1, 0))].
Definition plain_device : device := Device NN 0 0 None.
(** Hadamards, then a detuning of 2 pi for one microsecond on both qubits. *)
Definition echo : tree := TChain [TLeaf (BPrim PH 0%nat); TLeaf (BPrim PH 1%nat); TRot 1000 0 (2 * PI) 0 SGlobal true].
Definition phases (c : R) (x : asg) : R := - (c * (b2r (x 0%nat) * b2r (x 1%nat)) - 2 * PI * (b2r (x 0%nat) + b2r (x 1%nat))).
Lemma evolves_rdiag F t : evolves (rdiag F) t (diag (fun x => - (t * F x))).
Proof.
  intros psi x. cbv zeta. change (cser (fun k => (RtoC (/ INR (fact k)) * power (scaleop (- Ci * RtoC t) (rdiag F)) k psi x)%C) (diag (fun x => - (t * F x)) psi x)).
  assert (P : forall k y, power (scaleop (- Ci * RtoC t)%C (rdiag F)) k psi y = (cpow (- Ci * RtoC (t * F y)) k * psi y)%C).
  { induction k as [|k IH]; intros y; cbn [power cpow]; [ring|]. unfold scaleop at 1, rdiag at 1. rewrite IH, RtoC_mult. ring. }
  unfold diag. apply (cser_ext (fun k => (ifact k * cpow (- Ci * RtoC (t * F x)) k) * psi x)%C); [intros k; rewrite P; unfold ifact; ring|]. apply cser_scal_r, scalar_series.
Qed.
Lemma apart_two : apart two_atoms.
Proof.
  intros a b [<- | [<- | []]] [<- | [<- | []]]; cbn [fst snd]; intros L; try lia. unfold M_Register.dist. cbn [fst snd]. replace ((0 - 1) ^ 2 + (0 - 0) ^ 2) with (1 * 1) by ring. rewrite sqrt_square by lra. lra.
Qed.
Definition echo_op (c : R) : Op := seqop (den (fun _ => 0) (BPrim PH 0%nat)) (seqop (den (fun _ => 0) (BPrim PH 1%nat)) (seqop (diag (phases c)) idop)).
Lemma echo_means c : means (fun _ => 0) plain_device c two_atoms echo (echo_op c).
Proof.
  cbn [means echo]. unfold echo_op. exists (den (fun _ => 0) (BPrim PH 0%nat)), (seqop (den (fun _ => 0) (BPrim PH 1%nat)) (seqop (diag (phases c)) idop)). split; [reflexivity|]. split; [|reflexivity].
  exists (den (fun _ => 0) (BPrim PH 1%nat)), (seqop (diag (phases c)) idop). split; [reflexivity|]. split; [|reflexivity]. exists (diag (phases c)), idop. split; [|split; reflexivity].
  unfold drives, H_background. cbn [plain_device d_pattern d_coupling].
  replace (addop (addop (H_int NN c two_atoms) zeroop) (H_drive 0 (2 * PI) 0 (driven two_atoms SGlobal))) with (rdiag (fun x => c * (b2r (x 0%nat) * b2r (x 1%nat)) - 2 * PI * (b2r (x 0%nat) + b2r (x 1%nat)))).
  - pose proof (evolves_rdiag (fun x => c * (b2r (x 0%nat) * b2r (x 1%nat)) - 2 * PI * (b2r (x 0%nat) + b2r (x 1%nat))) (1000 / 1000)) as V.
    replace (phases c) with (fun x : asg => - (1000 / 1000 * (c * (b2r (x 0%nat) * b2r (x 1%nat)) - 2 * PI * (b2r (x 0%nat) + b2r (x 1%nat))))); [exact V|]. extensionality x. unfold phases. field.
  - unfold H_int, H_drive, two_atoms, driven, sum_of, pair_term. cbn [map fst snd fold_right Nat.ltb Nat.leb]. unfold N_. rewrite !n_rdiag.
    replace (M_Register.dist (0, 0) (1, 0)) with 1 by (unfold M_Register.dist; cbn [fst snd]; replace ((0 - 1) ^ 2 + (0 - 0) ^ 2) with (1 * 1) by ring; rewrite sqrt_square by lra; reflexivity).
    extensionality psi. extensionality x. unfold addop, scaleop, zeroop, seqop, rdiag. replace (0 / 2 * cos 0) with 0 by field. replace (- (0 / 2 * sin 0)) with 0 by field. replace (c / 1 ^ 6) with c by field.
    rewrite !Cmult_0_l, !Cplus_0_l, !Cplus_0_r. generalize (psi x); intros [u v]. apply Ceq; cbn; ring.
Qed.
Lemma both_h x : seqop (den (fun _ => 0) (BPrim PH 0%nat)) (den (fun _ => 0) (BPrim PH 1%nat)) (ket [0; 1]%nat [false; false]) x = RtoC (/ 2).
Proof.
  unfold seqop. cbn [den]. rewrite !gate1_eq. unfold ket. cbn [map upd Nat.eqb eqbits]. unfold upd. cbn [Nat.eqb eqbits Bool.eqb andb].
  assert (S2 : (/ sqrt 2 * / sqrt 2 = / 2)) by (rewrite <- Rinv_mult; rewrite sqrt_sqrt by lra; reflexivity).
  destruct (x 0%nat), (x 1%nat); cbn [prim_mat mat2 eqbits Bool.eqb andb]; rewrite <- RtoC_inv by (pose proof (sqrt_lt_R0 2 ltac:(lra)); lra); apply Ceq; cbn; rewrite <- ?S2; ring.
Qed.
Lemma echo_value c : exact_value (fun _ => 0) 2 (echo_op c) (BPrim PX 0%nat) = (1 + cos c) / 2.
Proof.
  unfold exact_value, expval, inner. cbn [bits map app csum seq repeat].
  assert (A : forall x, echo_op c (ket [0; 1]%nat [false; false]) x = (cis (phases c x) * RtoC (/ 2))%C).
  { intros x. unfold echo_op. change (cis (phases c x) * seqop (den (fun _ => 0) (BPrim PH 0%nat)) (den (fun _ => 0) (BPrim PH 1%nat)) (ket [0; 1]%nat [false; false]) x = cis (phases c x) * RtoC (/ 2))%C. rewrite both_h. reflexivity. }
  assert (B : forall r, amps 2 (echo_op c (ket [0; 1]%nat [false; false])) r = (cis (phases c (upds zeros [0; 1]%nat r)) * RtoC (/ 2))%C) by (intros r; apply A).
  assert (D : forall r, amps 2 (den (fun _ => 0) (BPrim PX 0%nat) (echo_op c (ket [0; 1]%nat [false; false]))) r = (cis (phases c (upd (upds zeros [0; 1]%nat r) 0%nat (negb (upds zeros [0; 1]%nat r 0%nat)))) * RtoC (/ 2))%C).
  { intros r. unfold amps. cbn [den]. rewrite x_eq. apply A. }
  rewrite !B, !D. cbn [upds negb]. unfold phases, upd. cbn [Nat.eqb negb b2r].
  assert (P0 : cis (- (c * (0 * 0) - 2 * PI * (0 + 0))) = (1, 0)) by (unfold cis; replace (- (c * (0 * 0) - 2 * PI * (0 + 0))) with 0 by ring; rewrite cos_0, sin_0; reflexivity).
  assert (P1 : cis (- (c * (0 * 1) - 2 * PI * (0 + 1))) = (1, 0)) by (unfold cis; replace (- (c * (0 * 1) - 2 * PI * (0 + 1))) with (2 * PI) by ring; rewrite cos_2PI, sin_2PI; reflexivity).
  assert (P2 : cis (- (c * (1 * 0) - 2 * PI * (1 + 0))) = (1, 0)) by (unfold cis; replace (- (c * (1 * 0) - 2 * PI * (1 + 0))) with (2 * PI) by ring; rewrite cos_2PI, sin_2PI; reflexivity).
  assert (P3 : cis (- (c * (1 * 1) - 2 * PI * (1 + 1))) = (cos c, - sin c)).
  { unfold cis. replace (- (c * (1 * 1) - 2 * PI * (1 + 1))) with (- c + 2 * INR 2 * PI) by (cbn [INR]; ring). rewrite cos_period, sin_period, cos_neg, sin_neg. reflexivity. }
  rewrite P0, P1, P2, P3. cbn. field.
Qed.
(** The register is stretched as far as the pulses, so that the interaction falls much faster than the drive: with interacting atoms the extrapolation goes wrong even
    with a simulator without noise.  Here the exact expectation value of X is 1, and the result is 2, which no state has. *)
Theorem C58_interacting_refuted : exists d c r t o E stretches polyfit, stretchable t /\ apart r /\ d_pattern d = None /\ means (fun _ => 0) d c r t E /\
  NoDup stretches /\ Forall (fun s => 0 < s) stretches /\ P_Zne.polyfit_ok polyfit stretches /\ exact_value (fun _ => 0) (List.length r) E o = 1 /\
  (exists measure, ideal (fun _ => 0) d c measure) /\
  forall measure, ideal (fun _ => 0) d c measure -> pulse_experiment polyfit measure r t [o] stretches = Some [[2]].
Proof.
  set (c := 32 * PI). exists plain_device, c, two_atoms, echo, (BPrim PX 0%nat), (echo_op c), [1; 2], P_Zne.line_fit.
  assert (St : stretchable echo) by (cbn; repeat split; right; pose proof PI_RGT_0; lra).
  assert (cos c = 1) as C1 by (unfold c; replace (32 * PI) with (0 + 2 * INR 16 * PI) by (cbn [INR]; ring); rewrite cos_period; apply cos_0).
  split; [exact St|]. split; [exact apart_two|]. split; [reflexivity|]. split; [apply echo_means|]. split; [repeat constructor; cbn; try tauto; intros [K|[]]; lra|].
  split; [repeat constructor; lra|]. split; [apply P_Zne.C19_case|]. split; [rewrite echo_value, C1; field|]. split; [exists (simulator (fun _ => 0) plain_device c); apply simulator_ideal|].
  intros measure Id.
  rewrite (C58_extrapolates P_Zne.line_fit measure two_atoms echo [BPrim PX 0%nat] [1; 2] (fun _ => [[2; -1]])).
  - cbn. repeat f_equal. ring.
  - discriminate.
  - repeat constructor; cbn; try tauto; intros [K|[]]; lra.
  - repeat constructor; lra.
  - apply P_Zne.C19_case.
  - exact St.
  - intros o p _ [<- | []]. cbn. lia.
  - intros s t' o Is Et [<- | []].
    assert (Hs : 0 < s) by (destruct Is as [<- | [<- | []]]; lra).
    destruct (C58_stretch (fun _ => 0) plain_device c two_atoms s echo eq_refl Hs apart_two St) as (t'' & E2 & K). assert (t'' = t') by congruence. subst t''.
    rewrite (Id _ _ (echo_op (weakened NN c s)) _ (proj2 (K _) (echo_means _))). change (List.length (M_Register.rescale_coords two_atoms s)) with 2%nat.
    change [exact_value (fun _ => 0) 2 (echo_op (weakened NN c s)) (BPrim PX 0%nat)] with (map (fun p => P_Zne.peval p s) [[2; -1]]) || idtac.
    match goal with |- [?v] = _ => replace v with (exact_value (fun _ => 0) 2 (echo_op (weakened NN c s)) (BPrim PX 0%nat)) by reflexivity end. rewrite echo_value. cbn [map weakened].
    destruct Is as [<- | [<- | []]].
    + replace (c / 1 ^ 5) with c by field. rewrite C1. f_equal. cbn. field.
    + replace (c / 2 ^ 5) with PI by (unfold c; field). rewrite cos_PI. f_equal. cbn. field.
Qed.

(** * Cases *)
(** A single atom: the value of Z after a resonant pulse and a rotation. *)
Example C58_case : exists E, means (fun _ => 0) plain_device 5 [(0%nat, (0, 0))] (TChain [TLeaf (BPrim PH 0%nat); TRot 500 0 3 0 SGlobal true]) E /\
  pulse_experiment P_Zne.line_fit (simulator (fun _ => 0) plain_device 5) [(0%nat, (0, 0))] (TChain [TLeaf (BPrim PH 0%nat); TRot 500 0 3 0 SGlobal true]) [BPrim PX 0%nat; BPrim PZ 0%nat] [1; 2] =
  Some [[exact_value (fun _ => 0) 1 E (BPrim PX 0%nat)]; [exact_value (fun _ => 0) 1 E (BPrim PZ 0%nat)]].
Proof.
  set (t := TChain _). set (r := [(0%nat, (0, 0))]).
  assert (M : exists E, means (fun _ => 0) plain_device 5 r t E).
  { eexists. unfold t. cbn [means]. eexists _, _. split; [reflexivity|]. split; [|reflexivity]. eexists (diag _), _. split; [|split; [reflexivity|reflexivity]].
    unfold drives, H_background. cbn [plain_device d_pattern d_coupling].
    replace (addop (addop (H_int NN 5 r) zeroop) (H_drive 0 3 0 (driven r SGlobal))) with (rdiag (fun x => - (3 * b2r (x 0%nat)))); [apply evolves_rdiag|].
    unfold H_int, H_drive, r, driven, sum_of. cbn [map fst snd fold_right Nat.ltb Nat.leb]. unfold N_. rewrite !n_rdiag.
    extensionality psi. extensionality x. unfold addop, scaleop, zeroop, rdiag. replace (0 / 2 * cos 0) with 0 by field. replace (- (0 / 2 * sin 0)) with 0 by field.
    rewrite !Cmult_0_l, !Cplus_0_l, !Cplus_0_r. generalize (psi x); intros [u v]. apply Ceq; cbn; ring. }
  destruct M as (E & M). exists E. split; [exact M|].
  refine (C58_ideal (fun _ => 0) plain_device 5 _ P_Zne.line_fit r t E [BPrim PX 0%nat; BPrim PZ 0%nat] [1; 2] (simulator_ideal _ _ _) eq_refl _ _ _ M _ _ _ _).
  - left. cbn. lia.
  - intros a b [<- | []] [<- | []]; cbn; lia.
  - cbn. repeat split. right. lra.
  - discriminate.
  - repeat constructor; cbn; try tauto; intros [K|[]]; lra.
  - repeat constructor; lra.
  - apply P_Zne.C19_case.
Qed.
Example C58_wait_case : forall polyfit measure, pulse_experiment polyfit measure two_atoms (TChain [TRot 500 0 3 0 SGlobal true; TInt 100 SGlobal true]) [BPrim PZ 0%nat] [1; 2] = None.
Proof. intros polyfit measure. apply C58_wait_refuted; [cbn; tauto|discriminate]. Qed.
(** A noise model is required, and the stretches decide which experiment is run. *)
Theorem C58_analog_zne : forall {O} polyfit (measure : M_Register.register -> tree -> O -> list R) measure_at stretches probs r t observables,
  analog_zne polyfit measure measure_at false stretches probs r t observables = None /\
  (forall ss, stretches = Some ss -> analog_zne polyfit measure measure_at true stretches probs r t observables = pulse_experiment polyfit measure r t observables ss) /\
  (forall curves, stretches = None -> probs <> [] -> NoDup probs -> P_Zne.polyfit_ok polyfit probs ->
     (forall o p, In o observables -> In p (curves o) -> (List.length p <= List.length probs)%nat) ->
     (forall q o, In q probs -> In o observables -> measure_at q r t o = map (fun p => P_Zne.peval p q) (curves o)) ->
     analog_zne polyfit measure measure_at true stretches probs r t observables = Some (map (fun o => map (fun p => P_Zne.peval p 0) (curves o)) observables)).
Proof.
  intros O polyfit measure measure_at stretches probs r t obs. split; [reflexivity|]. split; [intros ss ->; reflexivity|]. intros curves -> Hne Hn Hf Hd Hm. cbn [analog_zne negb]. unfold noise_level_experiment.
  replace (map (fun o => map (fun p => measure_at p r t o) probs) obs) with (map (P_Zne.measured probs) (map curves obs)).
  - rewrite P_Zne.C19_zne; try assumption; [rewrite map_map; reflexivity|]. intros cv p H Hp'. apply in_map_iff in H as (o & <- & Ho). exact (Hd o p Ho Hp').
  - rewrite map_map. apply map_ext_in. intros o Ho. unfold P_Zne.measured. apply map_ext_in. intros q Hq. symmetry. apply Hm; assumption.
Qed.
Print Assumptions C58_stretch.
Print Assumptions C58_extrapolates.
Print Assumptions C58_ideal.
Print Assumptions C58_wait_refuted.
Print Assumptions C58_kron_refuted.
Print Assumptions C58_interacting_refuted.
Print Assumptions C58_analog_zne.
