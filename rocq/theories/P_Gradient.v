(** C54: gradients computed with the parameter-shift rules, for whole circuits. *)
From Coq Require Import String Reals List Arith Bool Lia Lra FunctionalExtensionality Permutation.
From Coquelicot Require Import Coquelicot.
From Coq Require Import List.
From Verif Require Import S_Ops L_Ops M_Block S_Den L_Den L_Loc L_Adj L_ExpMul L_ExpOp P_Qft L_Diag L_PauliExp P_Decompose L_Gates P_Unitary M_PSR S_PSR P_PSR M_Tensor M_Transpile M_Gradient S_Gradient L_Gradient L_GradientDiff L_GradientRules.
Import ListNotations.
Open Scope R_scope.

(** * Spectra of the gates *)
Lemma gaps_mcphase n : spectral_gaps_of (spectrum_mcphase n) = [2].
Proof.
  assert (HI : forall x, In x (spectrum_mcphase n) <-> x = 0 \/ x = -2).
  { intro x. unfold spectrum_mcphase. cbn [app In]. split.
    - intros [<- | [<- | H]]; auto. apply repeat_spec in H. auto.
    - intros [-> | ->]; auto. }
  apply gaps_eq.
  - intros x y Hx Hy. apply HI in Hx, Hy. destruct Hx as [-> | ->], Hy as [-> | ->].
    + replace (0 - 0) with 0 by ring. apply grid_Z.
    + replace (0 - -2) with 2 by ring. apply grid_Z.
    + replace (-2 - 0) with (-2) by ring. apply grid_Z.
    + replace (-2 - -2) with 0 by ring. apply grid_Z.
  - constructor; [intros ? []|constructor].
  - intro g. split.
    + intros [<- | []]. split; [lra|]. exists 0, (-2). rewrite !HI. repeat split; auto. lra.
    + intros [P (x & y & Hx & Hy & ->)]. apply HI in Hx, Hy. left. destruct Hx as [-> | ->], Hy as [-> | ->]; lra.
Qed.

Section Circuit.
  Variable eigvals : block -> list R.
  Variable needs : string -> bool.
  Variable rho0 : env.
  Notation ok := (agrees needs rho0).
  Notation supp := (supported eigvals needs rho0).

  Lemma filter_once (l1 m l2 : list string) u : NoDup (filter needs (l1 ++ m ++ l2)) -> needs u = true -> In u m -> ~ In u l1 /\ ~ In u l2.
  Proof.
    intros N Hu Hm. rewrite !filter_app in N. assert (Fm : In u (filter needs m)) by (apply filter_In; auto).
    split; intros H; assert (F : In u (filter needs l1) \/ In u (filter needs l2)) by (first [left; apply filter_In; split; assumption | right; apply filter_In; split; assumption]).
    - assert (F1 : In u (filter needs l1)) by (apply filter_In; auto). apply in_split in F1 as (a & b & E). rewrite E, <- app_assoc in N. cbn [app] in N. apply NoDup_remove_2 in N. apply N. rewrite !in_app_iff. auto.
    - assert (F1 : In u (filter needs l2)) by (apply filter_In; auto). apply in_split in Fm as (a & b & E). rewrite E in N. rewrite app_assoc, <- app_assoc in N.
      rewrite <- !app_assoc in N. cbn [app] in N. rewrite app_assoc in N. apply NoDup_remove_2 in N. apply N. rewrite !in_app_iff. auto.
  Qed.
  Lemma filter_part (l1 m l2 : list string) : NoDup (filter needs (l1 ++ m ++ l2)) -> NoDup (filter needs m).
  Proof. rewrite !filter_app. intros N. apply NoDup_app_inv in N as (_ & N & _). apply NoDup_app_inv in N as (N & _). exact N. Qed.

  (** The spectrum recorded for a differentiated parameter describes how the state depends on it. *)
  Lemma entry_spectral b : supp b -> NoDup (filter needs (occ b)) -> forall u b', In (u, b') (entries b) -> needs u = true ->
    exists l f, eigen_entry eigvals true b' = Some (Some (l, f)) /\ (forall rho, ok rho -> spectral rho u (spectral_gaps_of l) b).
  Proof.
    induction 1 as [p q|k b qs|a b|c a b|cs p q|m qs|r q u0|q u1 u2 u3|cs r q u0 Hcs|b e He Hb IH|bs Hb IH|bs Hb IH|g u0 Hg Hd]; intros N u b' H Nu; cbn [entries] in H; try contradiction.
    - cbn [labels map] in H. destruct H as [E|[]]. injection E as <- <-. exists (declared r), 1. split; [destruct r; reflexivity|].
      intros rho _. replace (spectral_gaps_of (declared r)) with [2] by (destruct r; symmetry; first [apply gaps_rot | apply gaps_phase]). apply spectral_rot.
    - cbn [labels map app] in H. exists spectrum_rot, 1. cbn [occ evars app] in N.
      assert (E : b' = BU q (EVar u1) (EVar u2) (EVar u3)) by (destruct H as [E|[E|[E|[]]]]; congruence). split; [rewrite E; reflexivity|].
      intros rho _. rewrite gaps_rot.
      assert (D : forall a c, needs a = true -> NoDup (filter needs (a :: c)) -> ~ In a c).
      { intros a c Ha Hn Hi. cbn [filter] in Hn. rewrite Ha in Hn. inversion Hn as [|? ? X _]; subst. apply X. apply filter_In. auto. }
      destruct H as [H|[H|[H|[]]]]; injection H as <- _.
      + assert (X : ~ In u1 [u2; u3]) by (apply D; assumption). apply (proj1 (spectral_u rho u1 q (ECst 0) (EVar u2) (EVar u3) X)).
      + assert (X : ~ In u2 [u1; u3]).
        { apply D; [exact Nu|]. apply (Permutation_NoDup (l := filter needs [u1; u2; u3])); [|exact N]. cbn [filter]. destruct (needs u1), (needs u2), (needs u3); try apply Permutation_refl; apply perm_swap. }
        apply (proj1 (proj2 (spectral_u rho u2 q (EVar u1) (ECst 0) (EVar u3) X))).
      + assert (X : ~ In u3 [u1; u2]).
        { apply D; [exact Nu|]. apply (Permutation_NoDup (l := filter needs [u1; u2; u3])); [|exact N]. apply (Permutation_trans (l' := filter needs ([u1; u2] ++ [u3]))); [apply Permutation_refl|].
          rewrite filter_app. change (filter needs [u3; u1; u2]) with (filter needs ([u3] ++ [u1; u2])). rewrite filter_app. apply Permutation_app_comm. }
        apply (proj2 (proj2 (spectral_u rho u3 q (EVar u1) (EVar u2) (ECst 0) X))).
    - cbn [labels map] in H. destruct H as [E|[]]. injection E as <- <-.
      exists (match r with RPhase => spectrum_mcphase (S (length cs)) | _ => spectrum_mcrot (S (length cs)) end), 1. split.
      + unfold eigen_entry. destruct r; cbn [eigenvalues_generator]; try reflexivity;
          (destruct (spectrum_mcrot (S (length cs))) as [|x l] eqn:E; [unfold spectrum_mcrot in E; apply app_eq_nil in E as [_ E]; discriminate E|reflexivity]).
      + intros rho _. destruct cs as [|c0 cs0]; [contradiction|].
        replace (spectral_gaps_of (match r with RPhase => spectrum_mcphase (S (length (c0 :: cs0))) | _ => spectrum_mcrot (S (length (c0 :: cs0))) end))
          with (match r with RPhase => [2] | _ => [1; 2] end); [apply spectral_pctrl|]. cbn [length]. destruct r; rewrite ?gaps_mcrot, ?gaps_mcphase; reflexivity.
    - cbn [occ] in N. rewrite filter_app in N. apply in_app_iff in H as [H|H].
      + apply in_map_iff in H as (v & E & H). injection E as -> _. apply labels_evars in H. rewrite (He u H) in Nu. discriminate.
      + apply NoDup_app_inv in N as (_ & N & _). destruct (IH N u b' H Nu) as (l & f & E & P). exists l, f. split; [exact E|]. intros rho Hr. apply spectral_scale; [apply P, Hr|].
        intros Hu. rewrite (He u Hu) in Nu. discriminate.
    - apply in_flat_map in H as (x & Hx & H). pose proof (in_entries_occ _ _ _ H) as Ho. apply in_split in Hx as (l1 & l2 & E). subst bs. cbn [occ] in N. rewrite flat_map_app in N. cbn [flat_map] in N.
      destruct (IH x ltac:(apply in_app_iff; right; left; reflexivity) (filter_part _ _ _ N) u b' H Nu) as (l & f & Ee & P). exists l, f. split; [exact Ee|].
      intros rho Hr. destruct (filter_once _ _ _ u N Nu Ho) as [N1 N2]. apply spectral_chain; [apply P, Hr|exact N1|exact N2].
    - apply in_flat_map in H as (x & Hx & H). pose proof (in_entries_occ _ _ _ H) as Ho. apply in_split in Hx as (l1 & l2 & E). subst bs. cbn [occ] in N. rewrite flat_map_app in N. cbn [flat_map] in N.
      destruct (IH x ltac:(apply in_app_iff; right; left; reflexivity) (filter_part _ _ _ N) u b' H Nu) as (l & f & Ee & P). exists l, f. split; [exact Ee|].
      intros rho Hr. destruct (filter_once _ _ _ u N Nu Ho) as [N1 N2]. apply (spectral_chain rho u _ l1 x l2); [apply P, Hr|exact N1|exact N2].
    - apply in_app_iff in H as [H|H].
      + apply in_entries_occ in H. rewrite (Hg u H) in Nu. discriminate.
      + cbn [labels map] in H. destruct H as [E|[]]. injection E as <- <-. destruct (Hd Nu) as [Gr D].
        assert (Hne : eigvals g <> []).
        { intros Z. rewrite Z in D. destruct D as (c & Hc & E). destruct c as [|p c]; [|destruct (Hc p (or_introl eq_refl)) as [[] _]].
          cbn [fold_right] in E. pose proof (f_equal (fun T : Op => fst (T (fun _ => RtoC 1) zeros)) E) as Q. unfold zeroop, idop in Q. simpl in Q. lra. }
        exists (map (fun x => x * 2) (eigvals g)), (match eigvals g with [x] => 1 / (x * 2) | _ => 1 / 2 end). split.
        * unfold eigen_entry. cbn [eigenvalues_generator]. destruct (eigvals g) as [|x l]; [contradiction|reflexivity].
        * intros rho Hr. apply spectral_evo; [|exact Gr|].
          -- intros Hi. rewrite (Hg u0 Hi) in Nu. discriminate.
          -- rewrite (den_occ rho rho0 g); [exact D|]. intros v Hv. apply Hr, Hg, Hv.
  Qed.
  Lemma needed_entry b : supp b -> forall u, In u (occ b) -> needs u = true -> exists b', In (u, b') (entries b).
  Proof.
    induction 1 as [p q|k b qs|a b|c a b|cs p q|m qs|r q u0|q u1 u2 u3|cs r q u0 Hcs|b e He Hb IH|bs Hb IH|bs Hb IH|g u0 Hg Hd]; intros u H Nu; cbn [occ evars] in H; try contradiction.
    - destruct H as [->|[]]. eexists. left. reflexivity.
    - eexists. cbn [entries labels map app]. destruct H as [->|[->|[->|[]]]]; simpl; auto.
    - destruct H as [->|[]]. eexists. left. reflexivity.
    - apply in_app_iff in H as [H|H]; [rewrite (He u H) in Nu; discriminate|]. destruct (IH u H Nu) as [b' Hb']. exists b'. cbn [entries]. apply in_app_iff. auto.
    - apply in_flat_map in H as (x & Hx & H). destruct (IH x Hx u H Nu) as [b' Hb']. exists b'. cbn [entries]. apply in_flat_map. eauto.
    - apply in_flat_map in H as (x & Hx & H). destruct (IH x Hx u H Nu) as [b' Hb']. exists b'. cbn [entries]. apply in_flat_map. eauto.
    - apply in_app_iff in H as [H|H]; [rewrite (Hg u H) in Nu; discriminate|]. destruct H as [->|[]]. eexists. cbn [entries]. apply in_app_iff. right. left. reflexivity.
  Qed.

  (** * The dictionary of rules *)
  Lemma eigen_list rs l es : osequence (map (fun ub : string * block => option_map (fun e => (fst ub, e)) (eigen_entry eigvals rs (snd ub))) l) = Some es ->
    map fst es = map fst l /\ (forall u e, In (u, e) es <-> exists b', In (u, b') l /\ eigen_entry eigvals rs b' = Some e).
  Proof.
    revert es. induction l as [|[k b'] l IH]; intros es H.
    - cbn [map osequence] in H. injection H as <-. split; [reflexivity|]. intros u e. split; [intros []|intros (? & [] & _)].
    - cbn [map osequence M_Tensor.obind fst snd] in H. destruct (eigen_entry eigvals rs b') as [e0|] eqn:E; [|discriminate H]. cbn [option_map M_Tensor.obind] in H.
      destruct (osequence _) as [es'|]; [|discriminate H]. cbn [M_Tensor.obind] in H. assert (E' : es = (k, e0) :: es') by congruence. subst es. destruct (IH es' eq_refl) as [I1 I2].
      split; [cbn [map fst]; f_equal; exact I1|]. intros u e. cbn [In]. rewrite I2. split.
      + intros [X|(x & X & Y)]; [injection X as <- <-; exists b'; auto|exists x; auto].
      + intros (x & [X|X] & Y); [injection X as <- <-; left; congruence|right; exists x; auto].
  Qed.
  Lemma flat_keys (es : list (string * option (list R * R))) k :
    In k (map fst (flat_map (fun ue => match snd ue with Some e => [(fst ue, e)] | None => [] end) es)) -> In k (map fst es).
  Proof.
    induction es as [|[a [e|]] es IH]; cbn [flat_map map fst snd app In]; [intros []| |]; intros H; [destruct H as [->|H]|]; auto.
  Qed.
  Lemma uuid_to_eigen_spec rs b eigs : uuid_to_eigen eigvals rs b = Some eigs ->
    NoDup (map fst eigs) /\ (forall u e, In (u, e) eigs <-> exists b', In (u, b') (uuid_to_block b []) /\ eigen_entry eigvals rs b' = Some (Some e)).
  Proof.
    unfold uuid_to_eigen. destruct (osequence _) as [es|] eqn:E; [|discriminate]. cbn [option_map]. intros H. apply eigen_list in E as [E1 E2].
    match type of H with Some ?x = _ => assert (EE : eigs = x) by congruence end. clear H. subst eigs. split.
    - assert (N : NoDup (map fst es)). { rewrite E1, uuid_to_block_entries. apply nodup_dputs. constructor. }
      clear E1 E2. induction es as [|[a [e|]] es IH]; cbn [flat_map map fst snd app] in *; [constructor| |]; inversion N as [|? ? X Y]; subst.
      + constructor; [|apply IH, Y]. intros K. apply X. apply flat_keys in K. exact K.
      + apply IH, Y.
    - intros u e. rewrite in_flat_map. split.
      + intros ([a o] & Hi & Ho). cbn [fst snd] in Ho. destruct o as [e'|]; [|destruct Ho]. destruct Ho as [X|[]]. injection X as -> ->. apply E2. exact Hi.
      + intros H. apply E2 in H. exists (u, Some e). split; [exact H|]. left. reflexivity.
  Qed.
  Lemma eigen_occ rs b eigs k : uuid_to_eigen eigvals rs b = Some eigs -> In k (map fst eigs) -> In k (occ b).
  Proof.
    intros E H. destruct (uuid_to_eigen_spec rs b eigs E) as [_ S]. apply in_map_iff in H as ([a e] & <- & H). apply S in H as (b' & H & _).
    rewrite uuid_to_block_entries in H. apply in_dputs in H as [H|[]]. eapply in_entries_occ, H.
  Qed.

  Variable solve : list (list R) -> list R -> option (list R).
  Variable arg : option R.
  Lemma fold_const (l : list (string * (list R * R))) (d : list (string * rule)) :
    fold_left (fun d e => dset (fst e) constant_rule d) l d = fold_left dput (map (fun e => (fst e, constant_rule)) l) d.
  Proof. revert d. induction l as [|e l IH]; intros d; cbn [fold_left map]; [reflexivity|]. rewrite IH. reflexivity. Qed.
  Lemma fold_consts (ls : list (list (string * (list R * R)))) (d : list (string * rule)) :
    fold_left (fun d l => fold_left (fun d e => dset (fst e) constant_rule d) l d) ls d = fold_left dput (map (fun e => (fst e, constant_rule)) (concat ls)) d.
  Proof. revert d. induction ls as [|l ls IH]; intros d; cbn [fold_left concat]; [reflexivity|]. rewrite IH, fold_const, map_app, fold_left_app. reflexivity. Qed.
  Lemma osequence_obs obs ls : osequence (map (uuid_to_eigen eigvals false) obs) = Some ls -> forall k, In k (map fst (concat ls)) -> exists o, In o obs /\ In k (occ o).
  Proof.
    revert ls. induction obs as [|o obs IH]; intros ls H k Hk; cbn [map osequence M_Tensor.obind] in H; [injection H as <-; destruct Hk|].
    destruct (uuid_to_eigen eigvals false o) as [l|] eqn:E; [|discriminate H]. cbn [M_Tensor.obind] in H. destruct (osequence _) as [ls'|]; [|discriminate H]. cbn [M_Tensor.obind] in H.
    assert (E' : ls = l :: ls') by congruence. subst ls. cbn [concat] in Hk. rewrite map_app in Hk. apply in_app_iff in Hk as [Hk|Hk].
    - exists o. split; [left; reflexivity|]. eapply eigen_occ; eassumption.
    - destruct (IH ls' eq_refl k Hk) as (o' & I & Q). exists o'. split; [right; exact I|exact Q].
  Qed.
  (** The rules of the differentiated parameters. *)
  Lemma rules_spec b obs rules : construct_rules eigvals solve arg b obs = Some rules -> (forall o u, In o obs -> In u (occ o) -> needs u = false) ->
    exists eigs, uuid_to_eigen eigvals true b = Some eigs /\ NoDup (map fst rules) /\
      (forall k, In k (map fst eigs) -> In k (map fst rules)) /\
      (forall k, In k (map fst rules) -> needs k = true -> In k (map fst eigs)) /\
      (forall k r, In (k, r) rules -> needs k = true -> exists e, In (k, e) eigs /\ r = gpsr solve arg e).
  Proof.
    unfold construct_rules. intros H Ho. destruct (uuid_to_eigen eigvals true b) as [eigs|] eqn:E; [|discriminate H]. cbn [M_Tensor.obind] in H.
    destruct (osequence _) as [ls|] eqn:EL; [|discriminate H]. cbn [M_Tensor.obind] in H. rewrite fold_consts in H.
    match type of H with Some ?x = _ => assert (EE : rules = x) by congruence end. clear H. subst rules. exists eigs. split; [reflexivity|].
    assert (C : forall k, In k (map fst (map (fun e : string * (list R * R) => (fst e, constant_rule)) (concat ls))) -> needs k = false).
    { intros k Hk. rewrite map_map in Hk. cbn [fst] in Hk. destruct (osequence_obs obs ls EL k Hk) as (o & I & Q). exact (Ho o k I Q). }
    assert (KE : forall k, In k (map fst (map (fun e : string * (list R * R) => (fst e, gpsr solve arg (snd e))) eigs)) <-> In k (map fst eigs)) by (intros k; rewrite map_map; reflexivity).
    repeat split.
    - apply nodup_dputs, nodup_dputs. constructor.
    - intros k Hk. apply keys_dputs. right. apply keys_dputs. left. apply KE, Hk.
    - intros k Hk Nk. apply keys_dputs in Hk as [Hk|Hk]; [rewrite (C k Hk) in Nk; discriminate|]. apply keys_dputs in Hk as [Hk|[]]. apply KE, Hk.
    - intros k r Hk Nk. apply in_dputs in Hk as [Hk|Hk].
      + assert (X : In k (map fst (map (fun e : string * (list R * R) => (fst e, constant_rule)) (concat ls)))) by (apply (in_map fst) in Hk; exact Hk). rewrite (C k X) in Nk. discriminate.
      + apply in_dputs in Hk as [Hk|[]]. apply in_map_iff in Hk as ([a e] & X & Hi). injection X as <- <-. exists e. auto.
  Qed.

  (** Conditions on the numerical side: solvable systems are solved exactly, and the denominator of a single-gap rule is not zero. *)
  Definition usable (eigs : list (string * (list R * R))) : Prop := forall u l f, In (u, (l, f)) eigs -> needs u = true ->
    ((2 <= length (spectral_gaps_of l))%nat -> solver_ok (length (spectral_gaps_of l)) solve) /\
    (forall g, spectral_gaps_of l = [g] -> sin (g * (prefactor arg f * (PI / 2)) / 2) <> 0).

  Lemma eigs_spectral b eigs u e : supp b -> NoDup (filter needs (occ b)) -> uuid_to_eigen eigvals true b = Some eigs -> In (u, e) eigs -> needs u = true ->
    forall rho, ok rho -> spectral rho u (spectral_gaps_of (fst e)) b.
  Proof.
    intros S N E H Nu rho Hr. destruct (uuid_to_eigen_spec true b eigs E) as [_ Q]. apply Q in H as (b' & H & Eb). rewrite uuid_to_block_entries in H. apply in_dputs in H as [H|[]].
    destruct (entry_spectral b S N u b' H Nu) as (l & f & El & P). assert (X : e = (l, f)) by congruence. subst e. apply P, Hr.
  Qed.

  (** One parameter, one observable. *)
  Lemma rule_exact b eigs u e n psi o d rho : supp b -> NoDup (filter needs (occ b)) -> uuid_to_eigen eigvals true b = Some eigs -> usable eigs -> In (u, e) eigs -> needs u = true ->
    (forall v, In v (occ o) -> needs v = false) -> ok rho ->
    gpsr solve arg e (expval n psi b o) rho u = Some d -> is_derive (fun t => expval n psi b o (with_param rho u t)) (rho u) d.
  Proof.
    intros S N E Hu H Nu Ho Hr Hd. destruct e as [l f]. destruct (Hu u l f H Nu) as [H1 H2]. unfold gpsr in Hd. cbn [fst snd] in Hd.
    apply (psr_exact solve l (prefactor arg f) _ (expval n psi b o) rho u d H1 H2); [|intros t; rewrite shifted_def; reflexivity|exact Hd].
    apply expval_trig; [apply gaps_nodup| |exact (eigs_spectral b eigs u (l, f) S N E H Nu rho Hr)]. intros Hi. rewrite (Ho u Hi) in Nu. discriminate.
  Qed.

  Lemma vjp_exact b eigs u e n psi wos v rho : supp b -> NoDup (filter needs (occ b)) -> uuid_to_eigen eigvals true b = Some eigs -> usable eigs -> In (u, e) eigs -> needs u = true ->
    (forall o x, In o (map snd wos) -> In x (occ o) -> needs x = false) -> ok rho ->
    vjp (map (fun wo : R * block => (fst wo, expval n psi b (snd wo))) wos) rho (gpsr solve arg e) u = Some v ->
    is_derive (fun t => rsum (map (fun wo : R * block => fst wo * expval n psi b (snd wo) (with_param rho u t)) wos)) (rho u) v.
  Proof.
    intros S N E Hu H Nu Ho Hr. unfold vjp. rewrite map_map. cbn [fst snd]. revert v. induction wos as [|[w o] wos IH]; intros v Hv.
    - cbn [map osequence option_map rsum] in Hv. injection Hv as <-. cbn [map rsum]. apply @is_derive_const.
    - cbn [map osequence M_Tensor.obind fst snd] in Hv. destruct (gpsr solve arg e (expval n psi b o) rho u) as [d|] eqn:Ed; [|discriminate Hv]. cbn [option_map M_Tensor.obind] in Hv.
      destruct (osequence _) as [ds|] eqn:El; [|discriminate Hv]. cbn [M_Tensor.obind option_map rsum] in Hv. assert (X : v = w * d + rsum ds) by congruence. subst v.
      cbn [map rsum fst snd]. apply @is_derive_plus.
      + apply (is_derive_scal (fun t => expval n psi b o (with_param rho u t)) (rho u) w d).
        apply (rule_exact b eigs u e n psi o d rho S N E Hu H Nu); [|exact Hr|exact Ed]. intros x Hx. apply (Ho o x); [left; reflexivity|exact Hx].
      + apply IH; [|cbn [option_map]; reflexivity]. intros o' x Hi. apply Ho. right. exact Hi.
  Qed.

  Lemma backward_list rules outs rho grads : backward rules outs needs rho = Some grads ->
    map fst grads = map fst rules /\
    forall k g, In (k, g) grads -> if needs k then exists r d, In (k, r) rules /\ g = Some d /\ vjp outs rho r k = Some d else g = None.
  Proof.
    unfold backward. revert grads. induction rules as [|[k r] rules IH]; intros grads H; cbn [map osequence M_Tensor.obind fst snd] in H.
    - injection H as <-. split; [reflexivity|]. intros k g [].
    - destruct (needs k) eqn:Nk.
      + destruct (vjp outs rho r k) as [d|] eqn:Ev; [|discriminate H]. cbn [option_map M_Tensor.obind] in H. destruct (osequence _) as [gs|]; [|discriminate H]. cbn [M_Tensor.obind] in H.
        assert (X : grads = (k, Some d) :: gs) by congruence. subst grads. destruct (IH gs eq_refl) as [I1 I2]. split; [cbn [map fst]; f_equal; exact I1|].
        intros k' g [Q|Q].
        * injection Q as <- <-. rewrite Nk. exists r, d. repeat split; [left; reflexivity|exact Ev].
        * specialize (I2 k' g Q). destruct (needs k'); [|exact I2]. destruct I2 as (r' & d' & X & Y). exists r', d'. split; [right; exact X|exact Y].
      + destruct (osequence _) as [gs|]; [|discriminate H]. cbn [M_Tensor.obind] in H. assert (X : grads = (k, None) :: gs) by congruence. subst grads. destruct (IH gs eq_refl) as [I1 I2].
        split; [cbn [map fst]; f_equal; exact I1|]. intros k' g [Q|Q].
        * injection Q as <- <-. rewrite Nk. reflexivity.
        * specialize (I2 k' g Q). destruct (needs k'); [|exact I2]. destruct I2 as (r' & d' & X & Y). exists r', d'. split; [right; exact X|exact Y].
  Qed.
End Circuit.

Lemma rsum_perm l l' : Permutation l l' -> rsum l = rsum l'.
Proof. induction 1; cbn [rsum]; lra. Qed.
Lemma rsum_filter {A} (p : A -> bool) (f : A -> R) l : rsum (map (fun x => if p x then f x else 0) l) = rsum (map f (filter p l)).
Proof. induction l as [|x l IH]; cbn [map rsum filter]; [reflexivity|]. destruct (p x); cbn [map rsum]; rewrite IH; ring. Qed.
Definition grad_of (grads : list (string * option R)) (u : string) : R :=
  match find (fun kg => String.eqb (fst kg) u) grads with Some (_, Some g) => g | _ => 0 end.
Lemma grad_of_in grads k g : NoDup (map fst grads) -> In (k, g) grads -> grad_of grads k = match g with Some x => x | None => 0 end.
Proof.
  unfold grad_of. induction grads as [|[a x] grads IH]; intros N H; [destruct H|]. cbn [map fst] in N. inversion N as [|? ? N1 N2]; subst. cbn [find fst]. destruct (String.eqb_spec a k) as [->|Q].
  - destruct H as [H|H]; [injection H as <-; reflexivity|]. exfalso. apply N1. apply (in_map fst) in H. exact H.
  - destruct H as [H|H]; [congruence|]. apply IH; assumption.
Qed.

(** C54. A circuit of gates, evolutions under fixed generators and compositions of them, in which every differentiated parameter
    occurs once; observables without differentiated parameters; arbitrary weights (the gradients that come in from a later
    computation).  If the rules exist and the backward pass returns gradients, then, however the gate parameters depend on a
    user's parameter, the gradients multiplied with the derivatives of the gate parameters add up to the derivative of the
    weighted expectation values. *)
Theorem C54_gradient : forall eigvals solve arg needs n psi b wos rho rules grads eigs,
  supported eigvals needs rho b -> NoDup (filter needs (occ b)) ->
  (forall o u, In o (map snd wos) -> In u (occ o) -> needs u = false) ->
  construct_rules eigvals solve arg b (map snd wos) = Some rules ->
  uuid_to_eigen eigvals true b = Some eigs -> usable needs solve arg eigs ->
  backward rules (map (fun wo : R * block => (fst wo, expval n psi b (snd wo))) wos) needs rho = Some grads ->
  forall (p : R -> env) (th : R) (dp : string -> R), p th = rho ->
    (forall s u, needs u = false -> p s u = rho u) ->
    (forall u, needs u = true -> is_derive (fun s => p s u) th (dp u)) ->
    is_derive (fun s => rsum (map (fun wo : R * block => fst wo * expval n psi b (snd wo) (p s)) wos)) th
              (rsum (map (fun kg => match snd kg with Some g => g * dp (fst kg) | None => 0 end) grads)).
Proof.
  intros eigvals solve arg needs n psi b wos rho rules grads eigs S N Ho HR HE HU HB p th dp Hp Hok Hdp.
  destruct (rules_spec eigvals needs solve arg b (map snd wos) rules HR Ho) as (eigs' & E' & NK & K1 & K2 & K3). assert (X : eigs' = eigs) by congruence. subst eigs'.
  destruct (backward_list needs rules _ rho grads HB) as [BK BV].
  set (U := filter needs (occ b)) in *.
  assert (KU : forall k, In k (map fst rules) /\ needs k = true <-> In k U).
  { intros k. unfold U. rewrite filter_In. split.
    - intros [H Nk]. split; [|exact Nk]. eapply eigen_occ; [exact HE|]. apply K2; assumption.
    - intros [H Nk]. split; [|exact Nk]. apply K1. destruct (uuid_to_eigen_spec eigvals true b eigs HE) as [_ Q].
      destruct (needed_entry eigvals needs rho b S k H Nk) as (b' & Hb'). 
      assert (KI : In k (map fst (uuid_to_block b []))) by (rewrite uuid_to_block_entries; apply keys_dputs; left; apply (in_map fst) in Hb'; exact Hb').
      apply in_map_iff in KI as ([k' b''] & Ek & Hi). cbn [fst] in Ek. subst k'. pose proof Hi as Hi'. rewrite uuid_to_block_entries in Hi'. apply in_dputs in Hi' as [Hi'|[]].
      destruct (entry_spectral eigvals needs rho b S N k b'' Hi' Nk) as (l & f & El & _). apply in_map_iff. exists (k, (l, f)). split; [reflexivity|]. apply Q. eauto. }
  assert (NG : NoDup (map fst grads)) by (rewrite BK; exact NK).
  replace (rsum (map (fun kg => match snd kg with Some g => g * dp (fst kg) | None => 0 end) grads)) with (rsum (map (fun u => grad_of grads u * dp u) U)).
  - assert (HD : Diff needs rho U (fun r => rsum (map (fun wo : R * block => fst wo * expval n psi b (snd wo) r) wos))).
    { apply (Diff_rsum needs rho U (fun (wo : R * block) r => fst wo * expval n psi b (snd wo) r)). intros wo Hwo. apply Diff_scal.
      apply (expval_diff needs rho U N eigvals); [exact S| |].
      - intros u Hu Nu. unfold U. apply filter_In. auto.
      - intros u Hu. apply (Ho (snd wo) u); [apply in_map; exact Hwo|exact Hu]. }
    apply (chain_rule needs rho U N (fun r => rsum (map (fun wo : R * block => fst wo * expval n psi b (snd wo) r) wos)) (grad_of grads) p th dp HD).
    + intros s u Nu. apply Hok, Nu.
    + intros u Hu. unfold U in Hu. apply filter_In in Hu as [_ Nu]. exact Nu.
    + intros u Hu. apply Hdp. unfold U in Hu. apply filter_In in Hu as [_ Nu]. exact Nu.
    + intros u Hu. apply KU in Hu as [Hk Nu]. rewrite <- BK in Hk. apply in_map_iff in Hk as ([k g] & Ek & Hi). cbn [fst] in Ek. subst k.
      pose proof (BV u g Hi) as Q. rewrite Nu in Q. destruct Q as (r & d & Hr & -> & Hv). rewrite (grad_of_in grads u (Some d) NG Hi).
      destruct (K3 u r Hr Nu) as (e & He & ->). rewrite Hp.
      apply (vjp_exact eigvals needs rho solve arg b eigs u e n psi wos d rho S N HE HU He Nu Ho); [intros v _; reflexivity|exact Hv].
  - transitivity (rsum (map (fun k => if needs k then grad_of grads k * dp k else 0) (map fst grads))).
    + rewrite rsum_filter. apply rsum_perm, Permutation_map, NoDup_Permutation; [exact N|apply NoDup_filter; exact NG|].
      intros k. rewrite filter_In, BK. symmetry. apply KU.
    + rewrite map_map. apply rsum_ext. intros [k g] Hi. cbn [fst snd]. pose proof (BV k g Hi) as Q. destruct (needs k) eqn:Nk.
      * rewrite (grad_of_in grads k g NG Hi). destruct Q as (r & d & _ & -> & _). reflexivity.
      * rewrite Q. reflexivity.
Qed.

(** The gradient of one parameter, by itself: the partial derivative. *)
Theorem C54_partial_derivative : forall eigvals solve arg needs n psi b wos rho rules grads eigs,
  supported eigvals needs rho b -> NoDup (filter needs (occ b)) ->
  (forall o u, In o (map snd wos) -> In u (occ o) -> needs u = false) ->
  construct_rules eigvals solve arg b (map snd wos) = Some rules ->
  uuid_to_eigen eigvals true b = Some eigs -> usable needs solve arg eigs ->
  backward rules (map (fun wo : R * block => (fst wo, expval n psi b (snd wo))) wos) needs rho = Some grads ->
  forall u g, In (u, Some g) grads ->
    is_derive (fun t => rsum (map (fun wo : R * block => fst wo * expval n psi b (snd wo) (with_param rho u t)) wos)) (rho u) g.
Proof.
  intros eigvals solve arg needs n psi b wos rho rules grads eigs S N Ho HR HE HU HB u g Hg.
  destruct (rules_spec eigvals needs solve arg b (map snd wos) rules HR Ho) as (eigs' & E' & NK & K1 & K2 & K3). assert (X : eigs' = eigs) by congruence. subst eigs'.
  destruct (backward_list needs rules _ rho grads HB) as [BK BV]. specialize (BV u (Some g) Hg). destruct (needs u) eqn:Nu; [|discriminate BV].
  destruct BV as (r & d & Hr & Ed & Hv). assert (X : g = d) by congruence. subst g. destruct (K3 u r Hr Nu) as (e & He & ->).
  apply (vjp_exact eigvals needs rho solve arg b eigs u e n psi wos d rho S N HE HU He Nu Ho); [intros v _; reflexivity|exact Hv].
Qed.

(** No parameter is forgotten: the backward pass returns one gradient, and not more than one, for every differentiated parameter of
    the circuit, and nothing for the parameters that need none. *)
Theorem C54_keys : forall eigvals solve arg needs outs b obs rho rules grads,
  supported eigvals needs rho b -> NoDup (filter needs (occ b)) ->
  (forall o u, In o obs -> In u (occ o) -> needs u = false) ->
  construct_rules eigvals solve arg b obs = Some rules ->
  backward rules outs needs rho = Some grads ->
  NoDup (map fst grads) /\
  (forall u, (exists g, In (u, Some g) grads) <-> In u (occ b) /\ needs u = true) /\
  (forall u, In (u, None) grads -> needs u = false).
Proof.
  intros eigvals solve arg needs outs b obs rho rules grads S N Ho HR HB.
  destruct (rules_spec eigvals needs solve arg b obs rules HR Ho) as (eigs & HE & NK & K1 & K2 & K3).
  destruct (backward_list needs rules outs rho grads HB) as [BK BV]. split; [rewrite BK; exact NK|]. split.
  - intros u. split.
    + intros [g Hg]. pose proof (BV u (Some g) Hg) as Q. destruct (needs u) eqn:Nu; [|discriminate Q]. split; [|reflexivity].
      eapply eigen_occ; [exact HE|]. apply K2; [|exact Nu]. rewrite <- BK. apply (in_map fst) in Hg. exact Hg.
    + intros [H Nu]. assert (KI : In u (map fst grads)).
      { rewrite BK. apply K1. destruct (uuid_to_eigen_spec eigvals true b eigs HE) as [_ Q]. destruct (needed_entry eigvals needs rho b S u H Nu) as (b' & Hb').
        assert (KI : In u (map fst (uuid_to_block b []))) by (rewrite uuid_to_block_entries; apply keys_dputs; left; apply (in_map fst) in Hb'; exact Hb').
        apply in_map_iff in KI as ([k' b''] & Ek & Hi). cbn [fst] in Ek. subst k'. pose proof Hi as Hi'. rewrite uuid_to_block_entries in Hi'. apply in_dputs in Hi' as [Hi'|[]].
        destruct (entry_spectral eigvals needs rho b S N u b'' Hi' Nu) as (l & f & El & _). apply in_map_iff. exists (u, (l, f)). split; [reflexivity|]. apply Q. eauto. }
      apply in_map_iff in KI as ([k g] & Ek & Hi). cbn [fst] in Ek. subst k. pose proof (BV u g Hi) as Q. rewrite Nu in Q. destruct Q as (r & d & _ & -> & _). eauto.
  - intros u Hu. pose proof (BV u None Hu) as Q. destruct (needs u); [|reflexivity]. destruct Q as (r & d & _ & E & _). discriminate E.
Qed.

(** * Circuits of gates: the gradient always exists *)
(** Built from gates with [chain] and [kron] alone. *)
Fixpoint gates (b : block) : Prop :=
  match b with
  | BScale _ _ | BAdd _ | BEvo _ _ => False
  | BChain bs | BKron bs => fold_right (fun b k => gates b /\ k) True bs
  | _ => True
  end.
Lemma gates_all bs : fold_right (fun b k => gates b /\ k) True bs <-> forall b, In b bs -> gates b.
Proof.
  induction bs as [|b bs IH]; cbn [fold_right]; [split; [intros _ ? []|auto]|]. rewrite IH. split.
  - intros [H1 H2] x [<-|H]; auto.
  - intros H. split; [apply H; left; reflexivity|intros x Hx; apply H; right; exact Hx].
Qed.
Lemma gate_entry eigvals needs rho0 b : supported eigvals needs rho0 b -> gates b -> forall u b', In (u, b') (entries b) ->
  exists l, eigen_entry eigvals true b' = Some (Some (l, 1)) /\ (spectral_gaps_of l = [2] \/ spectral_gaps_of l = [1; 2]).
Proof.
  induction 1 as [p q|k b qs|a b|c a b|cs p q|m qs|r q u0|q u1 u2 u3|cs r q u0 Hcs|b e He Hb IH|bs Hb IH|bs Hb IH|g u0 Hg Hd]; intros Hgt u b' H; cbn [entries] in H; cbn [gates] in Hgt; try contradiction.
  - cbn [labels map] in H. destruct H as [E|[]]. injection E as <- <-. exists (declared r). split; [destruct r; reflexivity|]. left. destruct r; first [apply gaps_rot | apply gaps_phase].
  - cbn [labels map app] in H. assert (E : b' = BU q (EVar u1) (EVar u2) (EVar u3)) by (destruct H as [E|[E|[E|[]]]]; congruence). subst b'. exists spectrum_rot. split; [reflexivity|]. left. apply gaps_rot.
  - cbn [labels map] in H. destruct H as [E|[]]. injection E as <- <-. destruct cs as [|c0 cs0]; [contradiction|].
    exists (match r with RPhase => spectrum_mcphase (S (length (c0 :: cs0))) | _ => spectrum_mcrot (S (length (c0 :: cs0))) end). split.
    + unfold eigen_entry. destruct r; cbn [eigenvalues_generator]; try reflexivity;
        (destruct (spectrum_mcrot (S (length (c0 :: cs0)))) as [|x l] eqn:E; [unfold spectrum_mcrot in E; apply app_eq_nil in E as [_ E]; discriminate E|reflexivity]).
    + cbn [length]. destruct r; rewrite ?gaps_mcrot, ?gaps_mcphase; auto.
  - apply in_flat_map in H as (x & Hx & H). rewrite gates_all in Hgt. eapply IH; eauto.
  - apply in_flat_map in H as (x & Hx & H). rewrite gates_all in Hgt. eapply IH; eauto.
Qed.
Lemma oseq_ex {A B} (f : A -> option B) l : (forall a, In a l -> exists y, f a = Some y) -> exists ys, osequence (map f l) = Some ys.
Proof.
  induction l as [|a l IH]; intros H; [exists []; reflexivity|]. destruct (H a (or_introl eq_refl)) as [y E]. destruct (IH (fun x Hx => H x (or_intror Hx))) as [ys E'].
  exists (y :: ys). cbn [map osequence]. rewrite E. cbn [M_Tensor.obind]. rewrite E'. reflexivity.
Qed.
Lemma sin_PI4_ne : sin (2 * (1 / 2 * (PI / 2)) / 2) <> 0.
Proof. pose proof PI_RGT_0. apply sin_ne_0. lra. Qed.
Lemma prefactor_1 : prefactor None 1 = 1 / 2.
Proof. unfold prefactor. destruct (Req_EM_T 1 1) as [_|N]; [reflexivity|]. exfalso. apply N. reflexivity. Qed.

Section Gates.
  Variable eigvals : block -> list R.
  Variable solve : list (list R) -> list R -> option (list R).
  Hypothesis solve2 : solver_ok 2 solve.
  Variable needs : string -> bool.
  Variable rho : env.
  Variable b : block.
  Hypothesis S : supported eigvals needs rho b.
  Hypothesis G : gates b.

  Lemma gates_eigs : exists eigs, uuid_to_eigen eigvals true b = Some eigs.
  Proof.
    unfold uuid_to_eigen.
    destruct (oseq_ex (fun ub : string * block => option_map (fun e => (fst ub, e)) (eigen_entry eigvals true (snd ub))) (uuid_to_block b [])) as [ys E].
    - intros [k b'] H. rewrite uuid_to_block_entries in H. apply in_dputs in H as [H|[]]. destruct (gate_entry eigvals needs rho b S G k b' H) as (l & E & _). cbn [fst snd]. rewrite E. eexists. reflexivity.
    - rewrite E. eexists. reflexivity.
  Qed.
  Lemma gates_eigs_gap eigs u e : uuid_to_eigen eigvals true b = Some eigs -> In (u, e) eigs -> snd e = 1 /\ (spectral_gaps_of (fst e) = [2] \/ spectral_gaps_of (fst e) = [1; 2]).
  Proof.
    intros E H. destruct (uuid_to_eigen_spec eigvals true b eigs E) as [_ Q]. apply Q in H as (b' & H & Eb). rewrite uuid_to_block_entries in H. apply in_dputs in H as [H|[]].
    destruct (gate_entry eigvals needs rho b S G u b' H) as (l & E' & P). assert (X : e = (l, 1)) by congruence. subst e. split; [reflexivity|exact P].
  Qed.
  Lemma gates_usable eigs : uuid_to_eigen eigvals true b = Some eigs -> usable needs solve None eigs.
  Proof.
    intros E u l f H Nu. destruct (gates_eigs_gap eigs u (l, f) E H) as [Ef Eg]. cbn [fst snd] in Ef, Eg. subst f. rewrite prefactor_1. split.
    - destruct Eg as [-> | ->]; cbn [length]; intros L; [lia|exact solve2].
    - intros g Hg. destruct Eg as [Eg|Eg]; rewrite Eg in Hg; [|discriminate Hg]. assert (X : g = 2) by congruence. subst g. exact sin_PI4_ne.
  Qed.
  Lemma gates_rule_some eigs u e E rho' name : uuid_to_eigen eigvals true b = Some eigs -> In (u, e) eigs -> exists d, gpsr solve None e E rho' name = Some d.
  Proof.
    intros Ee H. destruct (gates_eigs_gap eigs u e Ee H) as [Ef Eg]. unfold gpsr. rewrite Ef, prefactor_1. destruct Eg as [Eg|Eg].
    - unfold general_psr. rewrite Eg. eexists. reflexivity.
    - apply (proj2 (C22_defined solve (fst e) (1 / 2) E rho' name ltac:(rewrite Eg; cbn [length]; lia) ltac:(rewrite Eg; exact solve2))). rewrite Eg. exact default_system_12.
  Qed.
End Gates.

(** With the default options a circuit of gates can always be differentiated, and the result is the derivative. *)
Theorem C54_gates : forall eigvals solve needs n psi b wos rho,
  solver_ok 2 solve -> supported eigvals needs rho b -> gates b -> NoDup (filter needs (occ b)) ->
  (forall o u, In o (map snd wos) -> In u (occ o) -> needs u = false) ->
  (forall o, In o (map snd wos) -> uuid_to_eigen eigvals false o <> None) ->
  exists rules grads, construct_rules eigvals solve None b (map snd wos) = Some rules /\
    backward rules (map (fun wo : R * block => (fst wo, expval n psi b (snd wo))) wos) needs rho = Some grads /\
    forall (p : R -> env) (th : R) (dp : string -> R), p th = rho ->
      (forall s u, needs u = false -> p s u = rho u) ->
      (forall u, needs u = true -> is_derive (fun s => p s u) th (dp u)) ->
      is_derive (fun s => rsum (map (fun wo : R * block => fst wo * expval n psi b (snd wo) (p s)) wos)) th
                (rsum (map (fun kg => match snd kg with Some g => g * dp (fst kg) | None => 0 end) grads)).
Proof.
  intros eigvals solve needs n psi b wos rho Hs S G N Ho Hn.
  destruct (gates_eigs eigvals needs rho b S G) as [eigs HE].
  destruct (oseq_ex (uuid_to_eigen eigvals false) (map snd wos)) as [ls EL].
  { intros o Hi. destruct (uuid_to_eigen eigvals false o) as [l|] eqn:E; [eauto|]. exfalso. exact (Hn o Hi E). }
  assert (HR : exists rules, construct_rules eigvals solve None b (map snd wos) = Some rules).
  { unfold construct_rules. rewrite HE. cbn [M_Tensor.obind]. rewrite EL. cbn [M_Tensor.obind]. eexists. reflexivity. }
  destruct HR as [rules HR]. exists rules.
  assert (HB : exists grads, backward rules (map (fun wo : R * block => (fst wo, expval n psi b (snd wo))) wos) needs rho = Some grads).
  { unfold backward. apply oseq_ex. intros [k r] Hk. cbn [fst snd]. destruct (needs k) eqn:Nk; [|eexists; reflexivity].
    destruct (rules_spec eigvals needs solve None b (map snd wos) rules HR Ho) as (eigs' & E' & NK & K1 & K2 & K3). destruct (K3 k r Hk Nk) as (e & He & ->).
    unfold vjp. rewrite map_map. cbn [fst snd].
    destruct (oseq_ex (fun wo : R * block => option_map (fun d => fst wo * d) (gpsr solve None e (expval n psi b (snd wo)) rho k)) wos) as [ds Ed].
    - intros wo _. destruct (gates_rule_some eigvals solve Hs needs rho b S G eigs' k e (expval n psi b (snd wo)) rho k E' He) as [d ->]. eexists. reflexivity.
    - rewrite Ed. eexists. reflexivity. }
  destruct HB as [grads HB]. exists grads. split; [exact HR|]. split; [exact HB|].
  apply (C54_gradient eigvals solve None needs n psi b wos rho rules grads eigs S N Ho HR HE); [|exact HB].
  apply (gates_usable eigvals solve Hs needs rho b S G eigs HE).
Qed.

(** * Higher derivatives *)
(** The expectation value, differentiated with respect to [us] one after the other by applying the rules to the result of the
    rules (the backward pass evaluates the shifted expectation values with the same differentiable function,
    differentiable_expectation.py:76-87). *)
Inductive nested (rules : list (string * rule)) (ok : env -> Prop) (E : env -> R) : list string -> (env -> R) -> Prop :=
| nested_nil : nested rules ok E [] E
| nested_cons u us r F G : nested rules ok E us F -> In (u, r) rules -> (forall rho, ok rho -> r F rho u = Some (G rho)) -> nested rules ok E (u :: us) G.
(** Iterated partial derivatives. *)
Inductive iterated (ok : env -> Prop) (E : env -> R) : list string -> (env -> R) -> Prop :=
| iterated_nil : iterated ok E [] E
| iterated_cons u us F G : iterated ok E us F -> partial_derivative ok u F G -> iterated ok E (u :: us) G.

Section Higher.
  Variable eigvals : block -> list R.
  Variable solve : list (list R) -> list R -> option (list R).
  Variable arg : option R.
  Variable needs : string -> bool.
  Variable rho0 : env.
  Variable b : block.
  Variable eigs : list (string * (list R * R)).
  Hypothesis S : supported eigvals needs rho0 b.
  Hypothesis N : NoDup (filter needs (occ b)).
  Hypothesis HE : uuid_to_eigen eigvals true b = Some eigs.
  Hypothesis HU : usable needs solve arg eigs.
  Notation ok := (agrees needs rho0).
  Definition dom (u : string) (G : list R) : Prop := needs u = true /\ exists e, In (u, e) eigs /\ G = spectral_gaps_of (fst e).
  Lemma trig_all_expval n psi o : (forall u, In u (occ o) -> needs u = false) -> trig_all needs rho0 dom (expval n psi b o).
  Proof.
    intros Ho u G (Nu & e & He & ->) rho Hr. apply expval_trig; [apply gaps_nodup| |exact (eigs_spectral eigvals needs rho0 b eigs u e S N HE He Nu rho Hr)].
    intros Hi. rewrite (Ho u Hi) in Nu. discriminate.
  Qed.
  Lemma trig_all_ext F G : (forall rho, ok rho -> F rho = G rho) -> trig_all needs rho0 dom F -> trig_all needs rho0 dom G.
  Proof.
    intros E H u gs Hd rho Hr. apply (trig_ext gs (fun t => F (with_param rho u t))); [|apply H; assumption]. intro t. apply E. apply agrees_with; [exact Hr|]. destruct Hd as [Nu _]. exact Nu.
  Qed.
  Lemma rule_closed F G u e : trig_all needs rho0 dom F -> In (u, e) eigs -> needs u = true -> (forall rho, ok rho -> gpsr solve arg e F rho u = Some (G rho)) ->
    trig_all needs rho0 dom G /\ partial_derivative ok u F G.
  Proof.
    intros HF He Nu HG. destruct e as [l f]. destruct (HU u l f He Nu) as [H1 H2]. unfold gpsr in HG. cbn [fst snd] in HG. split.
    - destruct (psr_form solve l (prefactor arg f) H1) as [HN|[cs Hcs]].
      + exfalso. specialize (HG rho0 (fun _ _ => eq_refl)). rewrite HN in HG. discriminate HG.
      + apply (trig_all_ext (fun rho => shifts_form cs F rho u)).
        * intros rho Hr. specialize (HG rho Hr). rewrite Hcs in HG. congruence.
        * apply trig_all_form; [exact HF|exact Nu].
    - intros rho Hr. apply (psr_exact solve l (prefactor arg f) (fun t => F (with_param rho u t)) F rho u (G rho) H1 H2).
      + apply HF; [|exact Hr]. split; [exact Nu|]. exists (l, f). auto.
      + intros t. rewrite shifted_def. reflexivity.
      + apply HG, Hr.
  Qed.
End Higher.

(** Rules applied to rules, to any order, give the iterated partial derivatives. *)
Theorem C54_higher : forall eigvals solve arg needs rho0 b eigs obs rules,
  supported eigvals needs rho0 b -> NoDup (filter needs (occ b)) ->
  (forall o u, In o obs -> In u (occ o) -> needs u = false) ->
  construct_rules eigvals solve arg b obs = Some rules ->
  uuid_to_eigen eigvals true b = Some eigs -> usable needs solve arg eigs ->
  forall n psi o us D, In o obs -> (forall u, In u us -> needs u = true) ->
    nested rules (agrees needs rho0) (expval n psi b o) us D -> iterated (agrees needs rho0) (expval n psi b o) us D.
Proof.
  intros eigvals solve arg needs rho0 b eigs obs rules S N Ho HR HE HU n psi o us D Hi Hus HN.
  destruct (rules_spec eigvals needs solve arg b obs rules HR Ho) as (eigs' & E' & NK & K1 & K2 & K3). assert (X : eigs' = eigs) by congruence. subst eigs'.
  assert (K : trig_all needs rho0 (dom needs eigs) D /\ iterated (agrees needs rho0) (expval n psi b o) us D); [|apply K].
  induction HN as [|u us r F G HN IH Hr HG].
  - split; [|constructor]. apply (trig_all_expval eigvals needs rho0 b eigs S N HE n psi o). intros u Hu. apply (Ho o u Hi Hu).
  - assert (Nu : needs u = true) by (apply Hus; left; reflexivity). destruct (IH (fun v Hv => Hus v (or_intror Hv))) as [IT II].
    destruct (K3 u r Hr Nu) as (e & He & ->). destruct (rule_closed solve arg needs rho0 eigs HU F G u e IT He Nu HG) as [Q1 Q2]. split; [exact Q1|].
    econstructor; eassumption.
Qed.
(** For circuits of gates every mixed derivative can be computed so. *)
Theorem C54_higher_gates : forall eigvals solve needs rho0 b obs,
  solver_ok 2 solve -> supported eigvals needs rho0 b -> gates b -> NoDup (filter needs (occ b)) ->
  (forall o u, In o obs -> In u (occ o) -> needs u = false) ->
  (forall o, In o obs -> uuid_to_eigen eigvals false o <> None) ->
  exists rules, construct_rules eigvals solve None b obs = Some rules /\
  forall n psi o us, In o obs -> (forall u, In u us -> In u (occ b) /\ needs u = true) ->
    exists D, nested rules (agrees needs rho0) (expval n psi b o) us D /\ iterated (agrees needs rho0) (expval n psi b o) us D.
Proof.
  intros eigvals solve needs rho0 b obs Hs S G N Ho Hn.
  destruct (gates_eigs eigvals needs rho0 b S G) as [eigs HE].
  destruct (oseq_ex (uuid_to_eigen eigvals false) obs) as [ls EL].
  { intros o Hi. destruct (uuid_to_eigen eigvals false o) as [l|] eqn:E; [eauto|]. exfalso. exact (Hn o Hi E). }
  assert (HR : exists rules, construct_rules eigvals solve None b obs = Some rules).
  { unfold construct_rules. rewrite HE. cbn [M_Tensor.obind]. rewrite EL. cbn [M_Tensor.obind]. eexists. reflexivity. }
  destruct HR as [rules HR]. exists rules. split; [exact HR|]. intros n psi o us Hi Hus.
  pose proof (gates_usable eigvals solve Hs needs rho0 b S G eigs HE) as HU.
  destruct (rules_spec eigvals needs solve None b obs rules HR Ho) as (eigs' & E' & NK & K1 & K2 & K3). assert (X : eigs' = eigs) by congruence. subst eigs'.
  assert (K : exists D, nested rules (agrees needs rho0) (expval n psi b o) us D).
  { induction us as [|u us IH]; [eexists; constructor|]. destruct (IH (fun v Hv => Hus v (or_intror Hv))) as [F HF]. destruct (Hus u (or_introl eq_refl)) as [Hu Nu].
    assert (KI : In u (map fst rules)).
    { apply K1. destruct (uuid_to_eigen_spec eigvals true b eigs HE) as [_ Q]. destruct (needed_entry eigvals needs rho0 b S u Hu Nu) as (b' & Hb').
      assert (KI : In u (map fst (uuid_to_block b []))) by (rewrite uuid_to_block_entries; apply keys_dputs; left; apply (in_map fst) in Hb'; exact Hb').
      apply in_map_iff in KI as ([k' b''] & Ek & Hi'). cbn [fst] in Ek. subst k'. pose proof Hi' as Hi''. rewrite uuid_to_block_entries in Hi''. apply in_dputs in Hi'' as [Hi''|[]].
      destruct (entry_spectral eigvals needs rho0 b S N u b'' Hi'' Nu) as (l & f & El & _). apply in_map_iff. exists (u, (l, f)). split; [reflexivity|]. apply Q. eauto. }
    apply in_map_iff in KI as ([k r] & Ek & Hk). cbn [fst] in Ek. subst k. destruct (K3 u r Hk Nu) as (e & He & ->).
    exists (fun rho => match gpsr solve None e F rho u with Some d => d | None => 0 end). econstructor; [exact HF|exact Hk|]. intros rho _.
    destruct (gates_rule_some eigvals solve Hs needs rho0 b S G eigs u e F rho u HE He) as [d ->]. reflexivity. }
  destruct K as [D HD]. exists D. split; [exact HD|].
  apply (C54_higher eigvals solve None needs rho0 b eigs obs rules S N Ho HR HE HU n psi o us D Hi); [|exact HD]. intros u Hu. apply Hus, Hu.
Qed.

(** * Cases that meet the hypotheses *)
Definition ex_eigvals (g : block) : list R := match g with BPrim PZ _ => [-1; 1] | _ => [] end.
Definition all_needed (u : string) : bool := true.
(** RX(a) on qubit 0, a controlled RY(b) on qubit 1, a PHASE and a U gate, with the observable Z on qubit 1. *)
Definition ex_gates : block :=
  BChain [BRot RX_ 0 (EVar "a"); BPCtrl [0%nat] (BRot RY_ 1 (EVar "b")); BKron [BRot RPhase 0 (EVar "c"); BU 1 (EVar "d") (EVar "e") (EVar "f")]; BCtrl [0%nat] (BPrim PX 1)].
Example C54_gates_case : forall psi rho, exists rules grads,
  construct_rules ex_eigvals cramer2 None ex_gates [BPrim PZ 1] = Some rules /\
  backward rules [(1, expval 2 psi ex_gates (BPrim PZ 1))] all_needed rho = Some grads /\
  map fst grads = ["a"; "b"; "c"; "d"; "e"; "f"]%string /\
  forall th, rho = (fun _ => th) -> is_derive (fun s => 1 * expval 2 psi ex_gates (BPrim PZ 1) (fun _ => s) + 0) th (rsum (map (fun kg => match snd kg with Some g => g * 1 | None => 0 end) grads)).
Proof.
  intros psi rho.
  assert (S : supported ex_eigvals all_needed rho ex_gates).
  { apply sup_chain. intros b [<-|[<-|[<-|[<-|[]]]]]; [apply sup_rot|apply sup_pctrl; discriminate| |apply sup_ctrl]. apply sup_kron. intros b [<-|[<-|[]]]; [apply sup_rot|apply sup_u]. }
  destruct (C54_gates ex_eigvals cramer2 all_needed 2 psi ex_gates [(1, BPrim PZ 1)] rho C22_solver_exists S) as (rules & grads & HR & HB & HD).
  - cbn. tauto.
  - cbn [ex_gates occ flat_map evars app filter all_needed]. repeat constructor; simpl; intuition discriminate.
  - intros o u [<-|[]] Hu. destruct Hu.
  - intros o [<-|[]]. cbn. discriminate.
  - exists rules, grads. split; [exact HR|]. split; [exact HB|]. split.
    + pose proof (backward_list _ _ _ _ _ HB) as [-> _]. unfold construct_rules in HR. cbn in HR. match type of HR with Some ?x = _ => replace rules with x by congruence end. reflexivity.
    + intros th ->. apply (HD (fun s _ => s) th (fun _ => 1)); [reflexivity|discriminate|]. intros u _. apply @is_derive_id.
Qed.
Lemma z_diagonal rho q : diagonalises (uqubits (BPrim PZ q)) [-1; 1] (den rho (BPrim PZ q)).
Proof.
  exists [(-1, rdiag (fun x => b2r (x q))); (1, addop idop (scaleop (RtoC (-1)) (rdiag (fun x => b2r (x q)))))]. 
  assert (L : loc (inl (uqubits (BPrim PZ q))) (rdiag (fun x => b2r (x q)))). { rewrite <- n_rdiag. constructor. intros p [<-|[]]. left. reflexivity. }
  assert (Q : den rho (BPrim PZ q) = rdiag (fun x => zs x q)) by (rewrite <- z_rdiag; reflexivity). rewrite Q.
  split.
  - intros p [<-|[<-|[]]]; cbn [fst snd]; (split; [simpl; auto|]); split.
    + exact L.
    + extensionality psi. extensionality x. unfold seqop, scaleop, rdiag, zs, b2r. destruct (x q); apply Ceq; simpl; ring.
    + apply loc_add; [apply loc_id|apply loc_scale; exact L].
    + extensionality psi. extensionality x. unfold seqop, scaleop, addop, idop, rdiag, zs, b2r. destruct (x q); apply Ceq; simpl; ring.
  - cbn [fold_right snd]. extensionality psi. extensionality x. unfold addop, scaleop, idop, rdiag, zeroop. generalize (psi x) (b2r (x q)). intros [a c] k. apply Ceq; simpl; ring.
Qed.
Lemma grid_4 : forall x y, In x [-1; 1] -> In y [-1; 1] -> on_grid ((x - y) * 2).
Proof.
  intros x y [<-|[<-|[]]] [<-|[<-|[]]].
  - replace ((-1 - -1) * 2) with 0 by ring. apply grid_Z.
  - replace ((-1 - 1) * 2) with (-4) by ring. apply grid_Z.
  - replace ((1 - -1) * 2) with 4 by ring. apply grid_Z.
  - replace ((1 - 1) * 2) with 0 by ring. apply grid_Z.
Qed.
Lemma gaps_evo_z : spectral_gaps_of (map (fun x => x * 2) [-1; 1]) = [4].
Proof.
  apply gaps_eq.
  - intros x y Hx Hy. apply in_map_iff in Hx as (a & <- & Ha). apply in_map_iff in Hy as (c & <- & Hc). replace (a * 2 - c * 2) with ((a - c) * 2) by ring. apply grid_4; assumption.
  - constructor; [intros ? []|constructor].
  - intro g. cbn [map In]. split.
    + intros [<-|[]]. split; [lra|]. exists (1 * 2), (-1 * 2). repeat split; auto. lra.
    + intros [P (x & y & [<-|[<-|[]]] & [<-|[<-|[]]] & ->)]; left; lra.
Qed.
Lemma gaps_evo_z' : spectral_gaps_of [-1 * 2; 1 * 2] = [4].
Proof. exact gaps_evo_z. Qed.
(** A time evolution between two Hadamard gates, after a rotation: the gradient is the total derivative. *)
Definition ex_evo : block := BChain [BRot RY_ 0 (EVar "a"); BPrim PH 0; BEvo (BPrim PZ 0) (EVar "t"); BPrim PH 0].
Example C54_gradient_case : forall psi rho th, rho = (fun _ => th) -> exists rules grads,
  construct_rules ex_eigvals cramer2 None ex_evo [BPrim PZ 0] = Some rules /\
  backward rules [(1, expval 1 psi ex_evo (BPrim PZ 0))] all_needed rho = Some grads /\
  is_derive (fun s => 1 * expval 1 psi ex_evo (BPrim PZ 0) (fun _ => s) + 0) th (rsum (map (fun kg => match snd kg with Some g => g * 1 | None => 0 end) grads)).
Proof.
  intros psi rho th Hr.
  assert (S : supported ex_eigvals all_needed rho ex_evo).
  { apply sup_chain. intros b [<-|[<-|[<-|[<-|[]]]]]; [apply sup_rot|apply sup_prim| |apply sup_prim]. apply sup_evo; [intros v []|]. intros _. split; [exact grid_4|apply z_diagonal]. }
  assert (HE : uuid_to_eigen ex_eigvals true ex_evo = Some [("a"%string, (spectrum_rot, 1)); ("t"%string, (map (fun x => x * 2) [-1; 1], 1 / 2))]) by reflexivity.
  assert (HR : exists rules, construct_rules ex_eigvals cramer2 None ex_evo [BPrim PZ 0] = Some rules) by (eexists; reflexivity). destruct HR as [rules HR]. exists rules.
  assert (F2 : prefactor None (1 / 2) = 1 / 2) by (unfold prefactor; destruct (Req_EM_T (1 / 2) 1) as [Q|Q]; reflexivity).
  assert (HU : usable all_needed cramer2 None [("a"%string, (spectrum_rot, 1)); ("t"%string, (map (fun x => x * 2) [-1; 1], 1 / 2))]).
  { intros u l f [H|[H|[]]] _; injection H as <- <- <-; [rewrite gaps_rot, prefactor_1|rewrite gaps_evo_z', F2]; (split; [cbn [length]; lia|]); intros g Hg; injection Hg as <-; pose proof PI_RGT_0; apply sin_ne_0; lra. }
  assert (HB : exists grads, backward rules [(1, expval 1 psi ex_evo (BPrim PZ 0))] all_needed rho = Some grads).
  { unfold construct_rules in HR. rewrite HE in HR. cbn [M_Tensor.obind] in HR. unfold uuid_to_eigen in HR. cbn in HR. match type of HR with Some ?x = _ => replace rules with x by congruence end.
    unfold backward, vjp, gpsr, general_psr. cbn [map fst snd all_needed]. rewrite gaps_rot, gaps_evo_z'. eexists. reflexivity. }
  destruct HB as [grads HB]. exists grads. split; [exact HR|]. split; [exact HB|].
  refine (C54_gradient ex_eigvals cramer2 None all_needed 1 psi ex_evo [(1, BPrim PZ 0)] rho rules grads _ S _ _ HR HE HU HB (fun s _ => s) th (fun _ => 1) _ _ _).
  - cbn. repeat constructor; simpl; intuition discriminate.
  - intros o u [<-|[]] [].
  - symmetry. exact Hr.
  - discriminate.
  - intros u _. apply @is_derive_id.
Qed.

(** * Where the gradient is wrong *)
Definition zero1 : St := ket [0%nat] [false].
Lemma single_rule e E rho u : spectral_gaps_of (fst e) = [2] -> snd e = 1 -> gpsr cramer2 None e E rho u = Some (single_gap_psr E rho u 2 (PI / 4)).
Proof. intros H1 H2. unfold gpsr, general_psr. rewrite H1, H2, prefactor_1. replace (1 / 2 * (PI / 2)) with (PI / 4) by field. reflexivity. Qed.
Lemma twice_shift E rho u t : (forall s, E (shifted rho u s) = cos (2 * s)) -> rho u = t -> single_gap_psr E rho u 2 (PI / 4) = - sqrt 2 * sin (2 * t).
Proof.
  intros H <-. unfold single_gap_psr. rewrite !H. replace (2 * (rho u + PI / 4)) with (2 * rho u + PI / 2) by field. replace (2 * (rho u - PI / 4)) with (2 * rho u - PI / 2) by field.
  replace (2 * (PI / 4) / 2) with (PI / 4) by field. rewrite cos_plus, cos_minus, cos_PI2, sin_PI2, sin_PI4.
  assert (S2 : sqrt 2 * sqrt 2 = 2) by (apply sqrt_sqrt; lra). assert (P : 0 < sqrt 2) by (apply sqrt_lt_R0; lra).
  apply Rmult_eq_reg_r with (sqrt 2); [|lra]. replace (- sqrt 2 * sin (2 * rho u) * sqrt 2) with (- (sqrt 2 * sqrt 2) * sin (2 * rho u)) by ring. rewrite S2.
  replace (1 / sqrt 2) with (sqrt 2 / 2) by (apply Rmult_eq_reg_r with (sqrt 2); [|lra]; replace (sqrt 2 / 2 * sqrt 2) with (sqrt 2 * sqrt 2 / 2) by field; rewrite S2; field; lra). field. lra.
Qed.
Lemma sqrt2_not_2 : - sqrt 2 * sin (2 * (PI / 4)) <> - 2 * sin (2 * (PI / 4)).
Proof.
  replace (2 * (PI / 4)) with (PI / 2) by field. rewrite sin_PI2. intros H. assert (S2 : sqrt 2 * sqrt 2 = 2) by (apply sqrt_sqrt; lra). assert (E : sqrt 2 = 2) by lra. rewrite E in S2. lra.
Qed.
Lemma derive_cos2 t : is_derive (fun s => cos (2 * s)) t (- 2 * sin (2 * t)).
Proof. auto_derive; [exact I|ring]. Qed.

(** Finding: a rotation block used twice in a circuit (the same Python object, so the same identifier) is differentiated as if it
    occurred once.  For chain(rx, rx) with rx = RX(0, "x") and the observable Z the expectation value is cos(2x), and at x = pi/4
    the gradient returned is -sqrt 2 instead of -2. *)
Theorem C54_shared_refuted : exists b rules g d,
  (exists r, b = BChain [r; r]) /\
  construct_rules ex_eigvals cramer2 None b [BPrim PZ 0] = Some rules /\
  backward rules [(1, expval 1 zero1 b (BPrim PZ 0))] all_needed (fun _ => PI / 4) = Some [("x"%string, Some g)] /\
  is_derive (fun t => expval 1 zero1 b (BPrim PZ 0) (fun _ => t)) (PI / 4) d /\ g <> d.
Proof.
  set (b := BChain [BRot RX_ 0 (EVar "x"); BRot RX_ 0 (EVar "x")]).
  assert (HF : forall rho, expval 1 zero1 b (BPrim PZ 0) rho = cos (2 * rho "x"%string)).
  { intro rho. unfold expval, quad, matof, amps, b, zero1, ket, den, seqop, gate1, gate. simpl. set (t := rho "x"%string). change (ang rho (EVar "x"%string)) with t.
    assert (Ct : cos t = cos (t / 2) * cos (t / 2) - sin (t / 2) * sin (t / 2)) by (rewrite <- cos_2a; f_equal; field).
    assert (St : sin t = 2 * sin (t / 2) * cos (t / 2)) by (rewrite <- sin_2a; f_equal; field).
    rewrite (cos_2a t), Ct, St. ring. }
  exists b, [("x"%string, gpsr cramer2 None (spectrum_rot, 1))]. exists (- sqrt 2 * sin (2 * (PI / 4))), (- 2 * sin (2 * (PI / 4))). split; [eexists; reflexivity|]. split; [reflexivity|]. split; [|split].
  - unfold backward, vjp. cbn [map fst snd all_needed]. rewrite single_rule; [|apply gaps_rot|reflexivity].
    rewrite (twice_shift _ (fun _ => PI / 4) "x"%string (PI / 4)); [|intro s; rewrite HF; reflexivity|reflexivity]. cbn [option_map osequence M_Tensor.obind rsum]. do 3 f_equal. f_equal. ring.
  - apply (is_derive_ext (fun s => cos (2 * s))); [intro s; rewrite HF; reflexivity|]. apply derive_cos2.
  - exact sqrt2_not_2.
Qed.

(** Finding: the scale factor of a scaled gate is differentiated with the rule for the gate's own generator.  For the circuit
    x * X and the observable Z the expectation value is -x^2; at x = 1 the gradient returned is -pi / sqrt 2 instead of -2. *)
Theorem C54_scale_refuted : exists b rules g d,
  b = BScale (BPrim PX 0) (EVar "x") /\
  construct_rules ex_eigvals cramer2 None b [BPrim PZ 0] = Some rules /\
  backward rules [(1, expval 1 zero1 b (BPrim PZ 0))] all_needed (fun _ => 1) = Some [("x"%string, Some g)] /\
  is_derive (fun t => expval 1 zero1 b (BPrim PZ 0) (fun _ => t)) 1 d /\ g <> d.
Proof.
  set (b := BScale (BPrim PX 0) (EVar "x")).
  assert (HF : forall rho, expval 1 zero1 b (BPrim PZ 0) rho = - (rho "x"%string * rho "x"%string)).
  { intro rho. unfold expval, quad, matof, amps, b, zero1, ket, den, scaleop, gate1, gate. simpl. ring. }
  exists b, [("x"%string, gpsr cramer2 None (spectrum_rot, 1))]. exists (- (PI / sqrt 2)), (- 2). split; [reflexivity|]. split; [reflexivity|].
  assert (S2 : sqrt 2 * sqrt 2 = 2) by (apply sqrt_sqrt; lra). assert (P : 0 < sqrt 2) by (apply sqrt_lt_R0; lra). split; [|split].
  - unfold backward, vjp. cbn [map fst snd all_needed]. rewrite single_rule; [|apply gaps_rot|reflexivity].
    unfold single_gap_psr, shifted. rewrite !HF. cbn [String.eqb Ascii.eqb Bool.eqb]. replace (2 * (PI / 4) / 2) with (PI / 4) by field. rewrite sin_PI4.
    cbn [option_map osequence M_Tensor.obind rsum]. do 3 f_equal. f_equal. 
    replace (2 * (- ((1 + PI / 4) * (1 + PI / 4)) - - ((1 - PI / 4) * (1 - PI / 4)))) with (- (2 * PI)) by field.
    apply Rmult_eq_reg_r with (sqrt 2); [|lra]. replace (- (PI / sqrt 2) * sqrt 2) with (- PI) by (field; lra).
    transitivity (- (PI * (sqrt 2 * sqrt 2) / 2)); [field; lra|rewrite S2; field].
  - apply (is_derive_ext (fun s => - (s * s))); [intro s; rewrite HF; reflexivity|]. auto_derive; [exact I|ring].
  - intros H. assert (E : PI = 2 * sqrt 2). { apply Rmult_eq_reg_r with (/ sqrt 2); [|apply Rinv_neq_0_compat; lra]. rewrite Rmult_assoc, Rinv_r by lra. unfold Rdiv in H. lra. }
    pose proof PI2_3_2 as H3. assert (Q : PI * PI = 8) by (rewrite E; transitivity (4 * (sqrt 2 * sqrt 2)); [ring|rewrite S2; ring]).
    assert (K : 3 < PI) by lra. pose proof (Rmult_le_0_lt_compat 3 PI 3 PI ltac:(lra) ltac:(lra) K K). lra.
Qed.
Lemma x_invol : seqop (gate1 0 (prim_mat PX)) (gate1 0 (prim_mat PX)) = idop.
Proof. apply prim_invol. unfold involutive. tauto. Qed.
Lemma rot_x_expval t : fst (quad 1 (matof (seq 0 1) (gate1 0 (prim_mat PZ))) (amps 1 (rotop t (gate1 0 (prim_mat PX)) zero1))) = cos (2 * t).
Proof. unfold quad, matof, amps, zero1, ket, rotop, addop, scaleop, idop, gate1, gate. simpl. rewrite cos_2a. ring. Qed.

(** Finding: a parameter inside the generator of a time evolution is differentiated with the rule for the scaled gate alone.  For
    HamEvo(x * X, 1) and the observable Z the expectation value is cos(2x); at x = pi/4 the gradient returned is -sqrt 2
    instead of -2. *)
Theorem C54_generator_refuted : exists b rules g d,
  b = BEvo (BScale (BPrim PX 0) (EVar "x")) (ECst 1) /\
  construct_rules ex_eigvals cramer2 None b [BPrim PZ 0] = Some rules /\
  backward rules [(1, expval 1 zero1 b (BPrim PZ 0))] all_needed (fun _ => PI / 4) = Some [("x"%string, Some g)] /\
  is_derive (fun t => expval 1 zero1 b (BPrim PZ 0) (fun _ => t)) (PI / 4) d /\ g <> d.
Proof.
  set (b := BEvo (BScale (BPrim PX 0) (EVar "x")) (ECst 1)).
  assert (HF : forall rho, expval 1 zero1 b (BPrim PZ 0) rho = cos (2 * rho "x"%string)).
  { intro rho. rewrite <- rot_x_expval. unfold expval, b. rewrite den_evo. do 3 f_equal.
    rewrite <- (eop_invol (uqubits (BScale (BPrim PX 0) (EVar "x"))) (gate1 0 (prim_mat PX)) (rho "x"%string)); [|apply NoDup_nodup|constructor; intros q [<-|[]]; left; reflexivity|exact x_invol].
    f_equal. extensionality psi. extensionality x. cbn [den]. unfold scaleop. cbn [ev ang]. unfold ang. cbn [ev]. replace (fst (RtoC 1)) with 1 by reflexivity. ring. }
  exists b, [("x"%string, gpsr cramer2 None (spectrum_rot, 1))]. exists (- sqrt 2 * sin (2 * (PI / 4))), (- 2 * sin (2 * (PI / 4))). split; [reflexivity|]. split; [reflexivity|]. split; [|split].
  - unfold backward, vjp. cbn [map fst snd all_needed]. rewrite single_rule; [|apply gaps_rot|reflexivity].
    rewrite (twice_shift _ (fun _ => PI / 4) "x"%string (PI / 4)); [|intro s; rewrite HF; reflexivity|reflexivity]. cbn [option_map osequence M_Tensor.obind rsum]. do 3 f_equal. f_equal. ring.
  - apply (is_derive_ext (fun s => cos (2 * s))); [intro s; rewrite HF; reflexivity|]. apply derive_cos2.
  - exact sqrt2_not_2.
Qed.
(** Finding: the factor of a scaled sum in a generator gets no rule at all, so no gradient, although the expectation value depends
    on it.  Here the generator is x * add(X) and the rest as before. *)
Theorem C54_composite_refuted : exists b rules d,
  b = BEvo (BScale (BAdd [BPrim PX 0]) (EVar "x")) (ECst 1) /\
  construct_rules ex_eigvals cramer2 None b [BPrim PZ 0] = Some rules /\ ~ In "x"%string (map fst rules) /\
  is_derive (fun t => expval 1 zero1 b (BPrim PZ 0) (fun _ => t)) (PI / 4) d /\ d <> 0.
Proof.
  set (b := BEvo (BScale (BAdd [BPrim PX 0]) (EVar "x")) (ECst 1)).
  assert (HF : forall rho, expval 1 zero1 b (BPrim PZ 0) rho = cos (2 * rho "x"%string)).
  { intro rho. rewrite <- rot_x_expval. unfold expval, b. rewrite den_evo. do 3 f_equal.
    rewrite <- (eop_invol (uqubits (BScale (BAdd [BPrim PX 0]) (EVar "x"))) (gate1 0 (prim_mat PX)) (rho "x"%string)); [|apply NoDup_nodup|constructor; intros q [<-|[]]; left; reflexivity|exact x_invol].
    f_equal. extensionality psi. extensionality x. simpl den. unfold scaleop, addop, zeroop. unfold ang. cbn [ev]. replace (fst (RtoC 1)) with 1 by reflexivity. change (mat2 0 1 1 0) with (prim_mat PX). ring. }
  exists b, []. exists (- 2 * sin (2 * (PI / 4))). split; [reflexivity|]. split; [reflexivity|]. split; [intros []|]. split.
  - apply (is_derive_ext (fun s => cos (2 * s))); [intro s; rewrite HF; reflexivity|]. apply derive_cos2.
  - replace (2 * (PI / 4)) with (PI / 2) by field. rewrite sin_PI2. lra.
Qed.
(** Finding: nothing can be differentiated when a scaled CZ (or MCZ) occurs with a parameter: its spectrum is computed by
    concatenating a tensor without dimension, an exception. *)
Theorem C54_scaled_cz_refuted : forall eigvals solve arg cs q u b obs, In (BScale (BCtrl cs (BPrim PZ q)) (EVar u)) obs ->
  construct_rules eigvals solve arg b obs = None.
Proof.
  intros eigvals solve arg cs q u b obs H. unfold construct_rules. destruct (uuid_to_eigen eigvals true b) as [eigs|]; [|reflexivity]. cbn [M_Tensor.obind].
  replace (osequence (map (uuid_to_eigen eigvals false) obs)) with (@None (list (list (string * (list R * R))))); [reflexivity|]. symmetry.
  induction obs as [|o obs IH]; [destruct H|]. cbn [map osequence]. destruct H as [->|H].
  - reflexivity.
  - destruct (uuid_to_eigen eigvals false o); [|reflexivity]. cbn [M_Tensor.obind]. rewrite (IH H). reflexivity.
Qed.

Print Assumptions C54_gradient.
Print Assumptions C54_partial_derivative.
Print Assumptions C54_keys.
Print Assumptions C54_gates.
Print Assumptions C54_higher.
Print Assumptions C54_higher_gates.
Print Assumptions C54_shared_refuted.
Print Assumptions C54_scale_refuted.
Print Assumptions C54_generator_refuted.
Print Assumptions C54_composite_refuted.
Print Assumptions C54_scaled_cz_refuted.
