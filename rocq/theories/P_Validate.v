(** C10, second part: [validate] keeps the operator. *)
From Coq Require Import String Reals List Arith Bool Lia Lra FunctionalExtensionality Permutation.
From Coquelicot Require Import Coquelicot.
From Coq Require Import List.
From Verif Require Import S_Sets S_Ops L_Ops M_QubitSupport M_Block S_Den L_Den L_Loc M_BlockOps L_Support M_Tensor M_Transpile S_Transpile L_Transpile P_Invert M_Fill P_ChainOps P_Fill L_Exp M_Validate S_Validate.
Import ListNotations.
Open Scope R_scope.
Open Scope C_scope.

Lemma nonempty_all_qubits b : nonempty_all b -> no_evo b -> krons_all b -> qubits b <> [].
Proof.
  induction b as [p q|k br qs|r q e|q a b c|a b|c a b|cs b IH|cs b IH|b e IH|bs IH|bs IH|bs IH|mt qs|g t IH] using block_ind';
    cbn [nonempty_all no_evo krons_all qubits]; intros H He Hk; try discriminate; auto.
  - intros E. apply app_eq_nil in E as [_ E]. exact (IH H He Hk E).
  - intros E. apply app_eq_nil in E as [_ E]. exact (IH H He Hk E).
  - destruct H as [H1 H2]. apply all_forall in H2, He, Hk. destruct bs as [|x bs]; [congruence|].
    inversion IH; inversion H2; inversion He; inversion Hk; subst. simpl. intros E. apply app_eq_nil in E as [E _]. revert E. match goal with H : _ -> _ -> _ -> qubits ?x <> [] |- _ => apply H; assumption end.
  - destruct H as [H1 H2]. destruct Hk as (_ & _ & Hk). apply all_forall in H2, He, Hk. destruct bs as [|x bs]; [congruence|].
    inversion IH; inversion H2; inversion He; inversion Hk; subst. simpl. intros E. apply app_eq_nil in E as [E _]. revert E. match goal with H : _ -> _ -> _ -> qubits ?x <> [] |- _ => apply H; assumption end.
  - destruct H as [H1 H2]. apply all_forall in H2, He, Hk. destruct bs as [|x bs]; [congruence|].
    inversion IH; inversion H2; inversion He; inversion Hk; subst. simpl. intros E. apply app_eq_nil in E as [E _]. revert E. match goal with H : _ -> _ -> _ -> qubits ?x <> [] |- _ => apply H; assumption end.
Qed.

Section V.
  Variable si : list nat -> list nat.
  Hypothesis Hs : set_order si.

  (** Reassigning changes neither the shape nor the depth. *)
  Lemma reassign_shape m b : forall y, reassign si m b = Some y -> (nonempty_all b -> nonempty_all y) /\ bdepth y = bdepth b.
  Proof.
    assert (HL : forall k bs, Forall (fun b => forall y, reassign si m b = Some y -> (nonempty_all b -> nonempty_all y) /\ bdepth y = bdepth b) bs ->
      forall y, obind (osequence (map (reassign si m) bs)) (construct si k) = Some y ->
      (nonempty_all (comp k bs) -> nonempty_all y) /\ bdepth y = bdepth (comp k bs)).
    { intros k bs IH y Hy. destruct (osequence _) as [ys|] eqn:E; [|discriminate]. cbn [obind] in Hy.
      apply (construct_inv si Hs) in Hy as [-> _]. apply osequence_F2 in E.
      assert (HA : (bs <> [] /\ Forall nonempty_all bs -> ys <> [] /\ Forall nonempty_all ys) /\
                   fold_right (fun x k => Nat.max (bdepth x) k) 0%nat ys = fold_right (fun x k => Nat.max (bdepth x) k) 0%nat bs).
      { assert (HB : (Forall nonempty_all bs -> Forall nonempty_all ys) /\
                   fold_right (fun x k => Nat.max (bdepth x) k) 0%nat ys = fold_right (fun x k => Nat.max (bdepth x) k) 0%nat bs).
        { induction E as [|x z bs ys Hx F IHF]; [split; [constructor|reflexivity]|]. inversion IH as [|? ? IHx IHr]; subst.
          destruct (IHx _ Hx) as [J1 J2]. destruct (IHF IHr) as [J3 J4]. split.
          - intros H; inversion H; subst; constructor; auto.
          - cbn [fold_right]. rewrite J2, J4. reflexivity. }
        split; [|apply HB]. intros [H1 H2]. split; [|apply HB, H2]. inversion E; subst; [congruence|discriminate]. }
      destruct HA as [HA HB].
      destruct k; cbn [comp nonempty_all bdepth]; rewrite !all_forall, HB; split; auto. }
    induction b as [p q|k br qs|r q e|q a b c|a b|c a b|cs b IH|cs b IH|b e IH|bs IH|bs IH|bs IH|mt qs|g t IH] using block_ind';
      intros y Hy; cbn [reassign] in Hy;
      repeat match goal with
      | H : omap _ ?x = Some _ |- _ => destruct x eqn:?; [cbn [omap obind] in H|discriminate]
      | H : obind ?x _ = Some _ |- _ =>
          match x with osequence (map (reassign _ _) _) => fail 1 | _ => destruct x eqn:?; [cbn [obind] in H|discriminate] end
      end; try (injection Hy as <-).
    - split; auto.
    - split; [|reflexivity]. cbn [nonempty_all]. intros H E. subst. apply H. destruct qs; [reflexivity|]. apply osequence_some in Heqo. discriminate.
    - split; auto.
    - split; auto.
    - split; auto.
    - split; auto.
    - destruct (IH _ eq_refl) as [J1 J2]. cbn [nonempty_all bdepth]. rewrite J2. split; auto.
    - destruct (IH _ eq_refl) as [J1 J2]. cbn [nonempty_all bdepth]. rewrite J2. split; auto.
    - destruct (IH _ eq_refl) as [J1 J2]. cbn [nonempty_all bdepth]. rewrite J2. split; auto.
    - apply (HL KChain bs IH y Hy).
    - apply (HL KKron bs IH y Hy).
    - apply (HL KAdd bs IH y Hy).
    - split; [|reflexivity]. cbn [nonempty_all]. intros H E. subst. apply H. destruct qs; [reflexivity|]. apply osequence_some in Heqo. discriminate.
    - destruct (forallb _ _); [|discriminate]. injection Hy as <-. split; auto.
  Qed.

  Definition vgood (b : block) (v : vblock) : Prop := forall rho, vden rho v = den rho b.

  Lemma place_local b nb lo hi rho : (forall q, In q (qubits b) -> (lo <= q <= hi)%nat) -> (lo <= hi)%nat ->
    renamed (rng lo hi) (fun i => i - lo)%nat (den rho b) (den rho nb) ->
    place (rng lo hi) (den rho nb) = den rho b.
  Proof.
    intros Hb Hle HR. unfold place.
    rewrite (den_is_gate rho b (rng lo hi)) at 1; [|apply seq_NoDup|intros q Hq; apply in_rng, Hb, Hq].
    apply gate_ext. intros r c Hr Hc. rewrite <- HR by assumption.
    replace (map (fun i => i - lo)%nat (rng lo hi)) with (seq 0 (length (rng lo hi))); [reflexivity|].
    unfold rng. rewrite seq_length. generalize (S hi - lo)%nat. intros n. clear.
    replace (map (fun i => i - lo)%nat (seq lo n)) with (map (fun i => i - lo)%nat (seq (0 + lo) n)) by reflexivity.
    generalize 0%nat. induction n as [|n IH]; intros k; [reflexivity|]. cbn [seq map]. f_equal; [lia|]. apply (IH (S k)).
  Qed.

  Lemma vkron_vden (k : kind) vs v rho : vconstruct k vs = Some v ->
    vden rho v = match k with KAdd => fold_right (fun w k => addop (vden rho w) k) zeroop vs
                 | _ => fold_right (fun w k => seqop (vden rho w) k) idop vs end.
  Proof.
    destruct k; cbn [vconstruct]; intros H.
    - injection H as <-. reflexivity.
    - destruct vs; [discriminate|]. destruct (vkron_check _ _); injection H as <-; reflexivity.
    - injection H as <-. reflexivity.
  Qed.

  Lemma validate_good fuel : forall b, (bdepth b <= fuel)%nat -> krons_all b -> no_evo b -> nonempty_all b ->
    exists v, validate si fuel b = Some v /\ vgood b v.
  Proof.
    induction fuel as [|f IH]; intros b Hd Hk He Hn; [destruct b; simpl in Hd; lia|].
    set (inner := fun x => obind (minmax (sup si x)) (fun mm =>
          obind (reassign si (local_map (sup si x) (fst mm)) x) (fun nb =>
          omap (fun v => (v, mm)) (validate si f nb)))).
    assert (HI : forall x, (bdepth x <= f)%nat -> krons_all x -> no_evo x -> nonempty_all x ->
      exists v lo hi, inner x = Some (v, (lo, hi)) /\ minmax (sup si x) = Some (lo, hi) /\ (lo <= hi)%nat /\
        (forall q, In q (qubits x) -> (lo <= q <= hi)%nat) /\
        forall rho, place (rng lo hi) (vden rho v) = den rho x).
    { intros x Hdx Hkx Hex Hnx. unfold inner.
      pose proof (minmax_spec (sup si x)) as HM. pose proof (nonempty_all_qubits x Hnx Hex Hkx) as Hq.
      destruct (minmax (sup si x)) as [[lo hi]|] eqn:EM.
      2: { exfalso. destruct (qubits x) as [|q l] eqn:Eq; [congruence|].
           assert (In q (sup si x)) as Hin by (apply (in_sup si Hs); rewrite Eq; left; reflexivity). rewrite HM in Hin. destruct Hin. }
      destruct HM as (M1 & M2 & M3). cbn [obind fst snd].
      assert (M4 : forall q, In q (qubits x) -> (lo <= q <= hi)%nat) by (intros q Hq'; apply M3, (in_sup si Hs), Hq').
      assert (M5 : (lo <= hi)%nat) by (apply (M3 hi M2)).
      pose proof (reassign_good si Hs (nodup Nat.eq_dec (qubits x)) (fun i => i - lo)%nat (local_map (sup si x) lo)) as RG.
      assert (R1 : NoDup (nodup Nat.eq_dec (qubits x))) by apply NoDup_nodup.
      assert (RI : forall a b, In a (nodup Nat.eq_dec (qubits x)) -> In b (nodup Nat.eq_dec (qubits x)) -> (a - lo = b - lo)%nat -> a = b).
      { intros a b0 Ha Hb0. apply nodup_In in Ha. apply nodup_In in Hb0. apply M4 in Ha. apply M4 in Hb0. lia. }
      assert (RM : forall q, In q (nodup Nat.eq_dec (qubits x)) -> local_map (sup si x) lo q = Some (q - lo)%nat).
      { intros q Hq'. apply nodup_In in Hq'. unfold local_map.
        replace (existsb (Nat.eqb q) (sup si x)) with true; [reflexivity|]. symmetry. apply existsb_exists. exists q.
        split; [apply (in_sup si Hs), Hq'|apply Nat.eqb_refl]. }
      destruct (RG R1 RI RM x Hkx Hex) as (nb & Enb & G1 & G2 & G3 & G4 & G5 & G6); [intros q Hq'; apply nodup_In, Hq'|].
      rewrite Enb. cbn [obind]. destruct (reassign_shape _ _ _ Enb) as [Sh1 Sh2].
      destruct (IH nb) as (v & Ev & Gv); [lia|exact G3|exact G4|exact (Sh1 Hnx)|].
      rewrite Ev. cbn [omap obind]. exists v, lo, hi. split; [reflexivity|]. split; [reflexivity|]. split; [exact M5|]. split; [exact M4|].
      intros rho. rewrite (Gv rho). apply place_local; [exact M4|exact M5|].
      (* the same renaming on the whole interval *)
      pose proof (reassign_good si Hs (rng lo hi) (fun i => i - lo)%nat (fun i => if existsb (Nat.eqb i) (rng lo hi) then Some (i - lo)%nat else None)) as RG2.
      destruct (RG2 (seq_NoDup _ _)) with (b := x) as (nb' & Enb' & _ & _ & _ & _ & H5 & _);
        [intros a b0 Ha Hb0; apply in_rng in Ha; apply in_rng in Hb0; lia
        |intros q Hq'; replace (existsb (Nat.eqb q) (rng lo hi)) with true; [reflexivity|]; symmetry; apply existsb_exists; exists q; split; [exact Hq'|apply Nat.eqb_refl]
        |exact Hkx|exact Hex|intros q Hq'; apply in_rng, M4, Hq'|].
      assert (Same : forall m m' z, no_evo z -> (forall q, In q (qubits z) -> m q = m' q) -> reassign si m z = reassign si m' z).
      { clear. intros m m' z. induction z as [p q|k br qs|r q e|q a b c|a b|c a b|cs b IH|cs b IH|b e IH|bs IH|bs IH|bs IH|mt qs|g t IH] using block_ind';
          cbn [no_evo qubits reassign]; intros He H.
        - rewrite H by (left; reflexivity); reflexivity.
        - f_equal. f_equal. apply map_ext_in. exact H.
        - rewrite H by (left; reflexivity); reflexivity.
        - rewrite H by (left; reflexivity); reflexivity.
        - rewrite !H by (simpl; auto); reflexivity.
        - rewrite !H by (simpl; auto); reflexivity.
        - rewrite IH by (auto; intros; apply H, in_app_iff; auto). rewrite (map_ext_in m m') by (intros; apply H, in_app_iff; auto). reflexivity.
        - rewrite IH by (auto; intros; apply H, in_app_iff; auto). rewrite (map_ext_in m m') by (intros; apply H, in_app_iff; auto). reflexivity.
        - rewrite IH by assumption. reflexivity.
        - rewrite (map_ext_in (reassign si m) (reassign si m')); [reflexivity|]. intros x Hx. apply all_forall in He. rewrite Forall_forall in IH, He.
          apply IH; auto. intros q Hq. apply H, in_flat_map. eauto.
        - rewrite (map_ext_in (reassign si m) (reassign si m')); [reflexivity|]. intros x Hx. apply all_forall in He. rewrite Forall_forall in IH, He.
          apply IH; auto. intros q Hq. apply H, in_flat_map. eauto.
        - rewrite (map_ext_in (reassign si m) (reassign si m')); [reflexivity|]. intros x Hx. apply all_forall in He. rewrite Forall_forall in IH, He.
          apply IH; auto. intros q Hq. apply H, in_flat_map. eauto.
        - f_equal. f_equal. apply map_ext_in. exact H.
        - destruct He. }
      rewrite (Same _ (local_map (sup si x) lo)) in Enb'.
      2: exact Hex.
      2: { intros q Hq'. rewrite (RM q) by (apply nodup_In, Hq'). replace (existsb (Nat.eqb q) (rng lo hi)) with true; [reflexivity|].
           symmetry. apply existsb_exists. exists q. split; [apply in_rng, M4, Hq'|apply Nat.eqb_refl]. }
      rewrite Enb in Enb'. injection Enb' as <-. apply H5. }
    assert (HC : forall k bs, bs <> [] -> Forall (fun x => (bdepth x <= f)%nat) bs -> Forall krons_all bs -> Forall no_evo bs -> Forall nonempty_all bs ->
      exists v, obind (osequence (map (fun x => omap (fun vm => VPut (fst vm) (rng (fst (snd vm)) (snd (snd vm)))) (inner x)) bs)) (vconstruct k) = Some v
        /\ vgood (comp k bs) v).
    { intros k bs Hbs F1 F2 F3 F4.
      destruct (osequence_map_ex (fun x => omap (fun vm => VPut (fst vm) (rng (fst (snd vm)) (snd (snd vm)))) (inner x)) bs (fun x v => vgood x v)) as (vs & E & F).
      { rewrite Forall_forall in *. intros x Hx. destruct (HI x) as (v & lo & hi & E1 & _ & _ & _ & E2); auto.
        rewrite E1. cbn [omap obind fst snd]. eexists. split; [reflexivity|]. intros rho. cbn [vden]. apply E2. }
      rewrite E. cbn [obind].
      assert (HE : exists v, vconstruct k vs = Some v).
      { destruct k; cbn [vconstruct]; eauto. destruct vs; [inversion F; subst; congruence|]. destruct (vkron_check _ _); eauto. }
      destruct HE as (v & Ev). exists v. split; [exact Ev|]. intros rho. rewrite (vkron_vden _ _ _ rho Ev).
      destruct k; cbn [comp den]; clear -F; induction F as [|x w bs vs H F IHF]; cbn [fold_right]; try reflexivity; rewrite (H rho), IHF; reflexivity. }
    assert (HD : forall bs, (S (fold_right (fun x k => Nat.max (bdepth x) k) 0%nat bs) <= S f)%nat -> Forall (fun x => (bdepth x <= f)%nat) bs).
    { clear. induction bs as [|x bs IH]; intros H; constructor; cbn [fold_right] in H; [lia|apply IH; lia]. }
    assert (HH : forall qs lo hi, minmax qs = Some (lo, hi) -> hull qs = rng lo hi).
    { intros [|q r] lo hi H; [discriminate|]. injection H as <- <-. reflexivity. }
    assert (V1 : forall c x y, validate si (S f) (BCSwap c x y) = omap (fun vm => VCtrl [c] [x; y] (fst vm)) (inner (BSwap x y))) by reflexivity.
    assert (V2 : forall cs x, validate si (S f) (BCtrl cs x) = omap (fun vm => VCtrl cs (sup si x) (fst vm)) (inner x)) by reflexivity.
    destruct b; cbn [bdepth krons_all no_evo nonempty_all] in *;
      try (eexists; split; [reflexivity|intros rho; reflexivity]).
    - destruct (HI (BSwap a b)) as (v & lo & hi & E1 & E2 & _ & _ & E3); [simpl; lia|exact I|exact I|exact I|].
      rewrite V1, E1. cbn [omap obind fst]. eexists. split; [reflexivity|]. intros rho. cbn [vden den].
      replace (place (hull [a; b]) (vden rho v)) with (place (rng lo hi) (vden rho v)); [rewrite E3; reflexivity|].
      f_equal. pose proof (minmax_spec (sup si (BSwap a b))) as HM. rewrite E2 in HM. destruct HM as (M1 & M2 & M3).
      rewrite (in_sup si Hs) in M1. rewrite (in_sup si Hs) in M2.
      assert (M4 : forall q, In q [a; b] -> (lo <= q <= hi)%nat) by (intros q Hq; apply M3, (in_sup si Hs); exact Hq).
      pose proof (M4 a (or_introl eq_refl)). pose proof (M4 b (or_intror (or_introl eq_refl))).
      unfold hull, rng. cbn [fold_left]. simpl in M1, M2. destruct M1 as [<-|[<-|[]]]; destruct M2 as [<-|[<-|[]]];
        f_equal; lia.
    - destruct (HI b) as (v & lo & hi & E1 & E2 & _ & _ & E3); auto; [lia|].
      rewrite V2, E1. cbn [omap obind fst]. eexists. split; [reflexivity|]. intros rho. cbn [vden den].
      rewrite (HH _ _ _ E2), E3. reflexivity.
    - destruct Hn as [N1 N2]. apply all_forall in Hk, He, N2. exact (HC KChain bs N1 (HD bs Hd) Hk He N2).
    - destruct Hn as [N1 N2]. destruct Hk as (_ & _ & Hk). apply all_forall in Hk, He, N2. exact (HC KKron bs N1 (HD bs Hd) Hk He N2).
    - destruct Hn as [N1 N2]. apply all_forall in Hk, He, N2. exact (HC KAdd bs N1 (HD bs Hd) Hk He N2).
  Qed.
End V.

(** validate accepts every block without empty composites and without HamEvo, and the block it returns, read with
    local qubit numbers, has the same operator. *)
Theorem C10_validate : forall set_iter b fuel, set_order set_iter -> (bdepth b <= fuel)%nat ->
  krons_all b -> no_evo b -> nonempty_all b ->
  exists v, validate set_iter fuel b = Some v /\ forall rho, vden rho v = den rho b.
Proof. intros si b fuel Hs Hd H1 H2 H3. apply (validate_good si Hs fuel b Hd H1 H2 H3). Qed.

Lemma osequence_map_some {A B} (f : A -> option B) l ys : osequence (map f l) = Some ys -> Forall2 (fun x y => f x = Some y) l ys.
Proof.
  revert ys. induction l as [|x l IH]; simpl; intros ys H; [injection H as <-; constructor|].
  destruct (f x) as [y|] eqn:E; [|discriminate]. simpl in H. destruct (osequence (map f l)) as [zs|]; [|discriminate]. injection H as <-. constructor; [exact E|apply IH; reflexivity].
Qed.
(** A kron becomes a kron again exactly if the ranges of qubits its parts are put on, from the smallest to the largest of each, do not meet;
    otherwise it becomes a chain. *)
Theorem C10_validate_kron : forall set_iter bs fuel v, validate set_iter fuel (BKron bs) = Some v ->
  exists vs, Forall2 (fun b w => exists lo hi u, minmax (sup set_iter b) = Some (lo, hi) /\ w = VPut u (rng lo hi)) bs vs /\
    (v = VComp KKron vs \/ v = VComp KChain vs) /\
    (v = VComp KKron vs <-> ForallOrdPairs (fun w w' => forall q, In q (vsup w) -> ~ In q (vsup w')) vs).
Proof.
  intros si bs [|f] v H; [discriminate H|]. cbn [validate] in H. match type of H with obind ?o _ = _ => destruct o as [vs|] eqn:E; [|discriminate H] end. cbn [obind] in H. exists vs. split.
  - apply osequence_map_some in E. clear H. induction E as [|b w bs ws E1 E IH]; constructor; [|exact IH]. destruct (minmax (sup si b)) as [[lo hi]|] eqn:M; [|discriminate E1].
    cbn [obind fst] in E1. destruct (reassign _ _ b) as [nb|]; [|discriminate E1]. cbn [obind] in E1. destruct (validate si f nb) as [u|]; [|discriminate E1]. injection E1 as <-. exists lo, hi, u. auto.
  - assert (G : forall vs acc, vkron_check acc vs = true <-> ForallOrdPairs (fun w w' => forall q, In q (vsup w) -> ~ In q (vsup w')) vs /\ forall w q, In w vs -> In q (vsup w) -> ~ In q acc).
    { clear. induction vs as [|w vs IH]; intros acc; cbn [vkron_check]; [split; [intros _; split; [constructor|intros w q []]|reflexivity]|].
      assert (X : negb (existsb (fun q => existsb (Nat.eqb q) acc) (vsup w)) = true <-> forall q, In q (vsup w) -> ~ In q acc).
      { rewrite negb_true_iff. split.
        - intros F q I J. assert (T : existsb (fun q => existsb (Nat.eqb q) acc) (vsup w) = true) by (apply existsb_exists; exists q; split; [exact I|]; apply existsb_exists; exists q; split; [exact J|apply Nat.eqb_refl]). congruence.
        - intros F. destruct (existsb _ _) eqn:T; [|reflexivity]. apply existsb_exists in T as (q & I & T). apply existsb_exists in T as (q' & J & T). apply Nat.eqb_eq in T. subst. destruct (F q' I J). }
      rewrite andb_true_iff, X, IH. clear X IH. split.
      - intros (A & B & C0). split; [constructor; [|exact B]|].
        + apply Forall_forall. intros w' I q J K. apply (C0 w' q I K). apply in_or_app. right. exact J.
        + intros w' q [<-|I] J; [apply A, J|]. intros K. apply (C0 w' q I J). apply in_or_app. left. exact K.
      - intros (A & B). inversion A as [|? ? A1 A2]; subst. split; [intros q; apply B; left; reflexivity|]. split; [exact A2|]. intros w' q I J K. apply in_app_or in K as [K|K]; [apply (B w' q (or_intror I) J K)|].
        rewrite Forall_forall in A1. exact (A1 w' I q K J). }
    unfold vconstruct in H. destruct vs as [|w vs]; [discriminate H|]. destruct (vkron_check [] (w :: vs)) eqn:K; injection H as <-.
    + split; [left; reflexivity|]. split; [intros _; apply (proj1 (G _ _) K)|reflexivity].
    + split; [right; reflexivity|]. split; [discriminate|]. intros F. exfalso. assert (T : vkron_check [] (w :: vs) = true) by (apply G; split; [exact F|auto]). congruence.
Qed.
Example C10_validate_kron_instance : exists u v w x, validate (fun l => l) 2 (BKron [BPrim PX 0; BPrim PX 1]) = Some (VComp KKron [u; v]) /\ validate (fun l => l) 2 (BKron [BSwap 0 2; BPrim PX 1]) = Some (VComp KChain [w; x]).
Proof. do 4 eexists. split; reflexivity. Qed.

(** With a HamEvo the generator keeps its global qubits and the operator changes. *)
Theorem C10_validate_evolution_refuted : exists set_iter b v rho, set_order set_iter /\ krons_all b /\ nonempty_all b /\
  validate set_iter (bdepth b) b = Some v /\ vden rho v <> den rho b.
Proof.
  set (e := BEvo (BPrim (PN true) 1) (ECst (RtoC PI))).
  exists sorted_set, (BChain [e]), (VComp KChain [VPut (VLeaf e) [1%nat]]), (fun _ => 0%R).
  split; [exact sorted_set_order|]. split; [simpl; tauto|]. split; [simpl; repeat split; discriminate|]. split; [reflexivity|].
  intros E. cbn [vden den fold_right] in E. rewrite !seqop_id_r in E.
  set (A := fun r c : list bool => - Ci * ang (fun _ => 0%R) (ECst (RtoC PI)) * matof [1%nat] (den (fun _ => 0%R) (BPrim (PN true) 1)) r c).
  assert (D : den (fun _ => 0%R) e = gate [1%nat] (bexp 1 A)) by reflexivity.
  rewrite D in E.
  assert (HA : forall r c, length r = 1%nat -> length c = 1%nat ->
     A r c = if eqbits r c then RtoC (match r with [true] => - PI | _ => 0 end)%R * Ci else RtoC 0).
  { intros r c Hr Hc. unfold A. cbn [den]. unfold gate1. rewrite matof_gate by (simpl; repeat constructor; simpl; tauto || assumption).
    destruct r as [|[] [|]], c as [|[] [|]]; try discriminate; cbn; apply Ceq; simpl; ring. }
  pose proof (bexp_diag 1 (fun r => match r with [true] => (- PI)%R | _ => 0%R end) A HA) as HB.
  apply (f_equal (fun op => op (fun _ => RtoC 1) (fun _ => true))) in E.
  unfold place, gate, matof in E. cbn [length seq bits map app csum upds] in E. unfold zeros, upd in E. cbn [Nat.eqb] in E.
  rewrite !HB in E by reflexivity. cbn in E. unfold cis in E. rewrite cos_neg, cos_PI, cos_0 in E.
  apply (f_equal fst) in E. cbn in E. lra.
Qed.


Example C10_validate_witness :
  let b := BChain [BKron [BCtrl [0%nat] (BPrim PX 2); BPrim PY 1]; BCtrl [3%nat] (BRot RX_ 1 (EVar "t"))] in
  krons_all b /\ no_evo b /\ nonempty_all b /\
  validate sorted_set (bdepth b) b =
    Some (VComp KChain [VPut (VComp KChain [VPut (VCtrl [0%nat] [2%nat] (VLeaf (BPrim PX 0))) [0;1;2]%nat; VPut (VLeaf (BPrim PY 0)) [1%nat]]) [0;1;2]%nat;
                        VPut (VCtrl [2%nat] [0%nat] (VLeaf (BRot RX_ 0 (EVar "t")))) [1;2;3]%nat]).
Proof.
  repeat split; try discriminate; repeat constructor; simpl; intuition lia.
Qed.

Print Assumptions C10_validate.
Print Assumptions C10_validate_evolution_refuted.
Print Assumptions C10_validate_kron.
