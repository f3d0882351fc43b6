(** C21, C22: the parameter-shift rules return the exact derivative. *)
From Coq Require Import String Reals List Arith Bool Lia Lra ZArith FunctionalExtensionality.
From Coquelicot Require Import Coquelicot.
From Coq Require Import List.
From Verif Require Import S_Ops L_Ops M_Block S_Den L_Den M_PSR S_PSR.
Import ListNotations.
Open Scope R_scope.

(** * Trigonometric polynomials with frequencies g/2 *)
Definition tterm (a b : R -> R) (t g : R) : R := a g * cos (g * t / 2) + b g * sin (g * t / 2).
Definition trig (G : list R) (f : R -> R) : Prop :=
  exists a0 (a b : R -> R), forall t, f t = a0 + rsum (map (tterm a b t) G).

Lemma rsum_ext {A} (f g : A -> R) l : (forall x, In x l -> f x = g x) -> rsum (map f l) = rsum (map g l).
Proof. induction l as [|x l IH]; intros H; simpl; [reflexivity|]. rewrite (H x (or_introl eq_refl)), IH; [reflexivity|]. intros; apply H; right; assumption. Qed.
Lemma rsum_plus {A} (f g : A -> R) l : rsum (map (fun x => f x + g x) l) = rsum (map f l) + rsum (map g l).
Proof. induction l as [|x l IH]; simpl; [ring|]. rewrite IH. ring. Qed.
Lemma rsum_scal {A} k (f : A -> R) l : rsum (map (fun x => k * f x) l) = k * rsum (map f l).
Proof. induction l as [|x l IH]; simpl; [ring|]. rewrite IH. ring. Qed.
Lemma rsum_zero {A} (f : A -> R) l : (forall x, In x l -> f x = 0) -> rsum (map f l) = 0.
Proof. induction l as [|x l IH]; intros H; simpl; [reflexivity|]. rewrite (H x (or_introl eq_refl)), IH; [ring|]. intros; apply H; right; assumption. Qed.

Lemma trig_ext G f g : (forall t, f t = g t) -> trig G f -> trig G g.
Proof. intros H (a0 & a & b & E). exists a0, a, b. intro t. rewrite <- H. apply E. Qed.
Lemma trig_const G c : trig G (fun _ => c).
Proof.
  exists c, (fun _ => 0), (fun _ => 0). intro t. rewrite rsum_zero; [ring|]. intros g _. unfold tterm. ring.
Qed.
Lemma trig_plus G f g : trig G f -> trig G g -> trig G (fun t => f t + g t).
Proof.
  intros (a0 & a & b & E) (c0 & c & d & F). exists (a0 + c0), (fun x => a x + c x), (fun x => b x + d x).
  intro t. rewrite E, F.
  replace (rsum (map (tterm (fun x => a x + c x) (fun x => b x + d x) t) G))
     with (rsum (map (tterm a b t) G) + rsum (map (tterm c d t) G)); [ring|].
  rewrite <- rsum_plus. apply rsum_ext. intros x _. unfold tterm. ring.
Qed.
Lemma trig_one G g p q : In g G -> NoDup G -> trig G (fun t => p * cos (g * t / 2) + q * sin (g * t / 2)).
Proof.
  intros Hin Hn. exists 0, (fun x => if Req_EM_T x g then p else 0), (fun x => if Req_EM_T x g then q else 0).
  intro t. rewrite Rplus_0_l. induction G as [|x G IH]; [destruct Hin|]. inversion Hn as [|? ? Hx Hn']; subst.
  simpl. destruct Hin as [->|Hin].
  - rewrite rsum_zero.
    + unfold tterm. destruct (Req_EM_T g g) as [_|C]; [ring|congruence].
    + intros y Hy. unfold tterm. destruct (Req_EM_T y g) as [->|_]; [contradiction|ring].
  - rewrite <- (IH Hin Hn'). unfold tterm at 1. destruct (Req_EM_T x g) as [->|_]; [contradiction|ring].
Qed.
Lemma trig_any G d p q : (d = 0 \/ In (Rabs d) G) -> NoDup G -> trig G (fun t => p * cos (d * t / 2) + q * sin (d * t / 2)).
Proof.
  intros [->|H] Hn.
  - eapply trig_ext; [|apply (trig_const G p)]. intro t. simpl. replace (0 * t / 2) with 0 by field. rewrite cos_0, sin_0. ring.
  - destruct (Rle_dec 0 d) as [L|L].
    + rewrite Rabs_pos_eq in H by exact L. apply trig_one; assumption.
    + rewrite Rabs_left in H by lra. eapply trig_ext; [|apply (trig_one G (- d) p (- q) H Hn)]. intro t. simpl.
      replace (- d * t / 2) with (- (d * t / 2)) by field. rewrite cos_neg, sin_neg. ring.
Qed.
Lemma trig_csum G {A} (h : A -> R -> C) l : (forall a, In a l -> trig G (fun t => fst (h a t))) -> trig G (fun t => fst (csum (fun a => h a t) l)).
Proof.
  induction l as [|a l IH]; intros H; simpl; [apply trig_const|]. apply trig_plus; [apply H; left; reflexivity|]. apply IH. intros; apply H; right; assumption.
Qed.

Lemma cis_prod s t : (cis s * cis t)%C = cis (s + t).
Proof. apply Ceq; simpl; [rewrite cos_plus|rewrite sin_plus]; ring. Qed.
Lemma cis_conj s : Cconj (cis s) = cis (- s).
Proof. apply Ceq; simpl; [rewrite cos_neg|rewrite sin_neg]; reflexivity. Qed.

(** The expectation is a trigonometric polynomial whose frequencies are half the eigenvalue differences. *)
Lemma expectation_trig n O comps G : NoDup G ->
  (forall p q, In p comps -> In q comps -> fst p - fst q = 0 \/ In (Rabs (fst p - fst q)) G) ->
  trig G (expectation n O comps).
Proof.
  intros Hn HG. unfold expectation, quad. apply (trig_csum G). intros r _. apply (trig_csum G). intros c _.
  eapply trig_ext; [|apply (trig_csum G (fun p t => csum (fun q => (cis ((fst p - fst q) * t / 2) * (Cconj (snd p r) * O r c * snd q c))%C) comps) comps)].
  - intro t. apply (f_equal (@fst R R)). symmetry. unfold evolved. rewrite csum_conj, <- csum_scal_r, <- csum_scal_r. apply csum_ext. intros p Hp.
    rewrite <- csum_scal. apply csum_ext. intros q Hq. rewrite Cconj_mult, cis_conj.
    replace ((fst p - fst q) * t / 2)%R with (- - (t * fst p / 2) + - (t * fst q / 2))%R by field. rewrite <- cis_prod. ring.
  - intros p Hp. apply (trig_csum G). intros q Hq.
    set (z := (Cconj (snd p r) * O r c * snd q c)%C). eapply trig_ext; [|apply (trig_any G (fst p - fst q) (fst z) (- snd z)); [apply HG; assumption|exact Hn]].
    intro t. simpl. ring.
Qed.

Ltac rg := match goal with |- ?a = ?b => change (@eq R a b) end; ring.
(** * Derivative and differences of trigonometric polynomials *)
Lemma trig_derive a0 a b G t : is_derive (fun t => a0 + rsum (map (tterm a b t) G)) t (rsum (map (fun g => g * ((b g * cos (g * t / 2) - a g * sin (g * t / 2)) / 2)) G)).
Proof.
  induction G as [|g G IH]; simpl.
  - apply (is_derive_ext (fun _ => a0 + 0)); [reflexivity|]. apply @is_derive_const.
  - apply (is_derive_ext (fun t => tterm a b t g + (a0 + rsum (map (tterm a b t) G)))); [intro; rg|].
    apply @is_derive_plus; [|exact IH]. unfold tterm. auto_derive; [exact I|]. match goal with |- ?a = ?b => change (@eq R a b) end. unfold Rdiv. field.
Qed.
Lemma trig_diff a b G t s : rsum (map (tterm a b (t + s)) G) - rsum (map (tterm a b (t - s)) G) =
  rsum (map (fun g => 4 * sin (s * g / 2) * ((b g * cos (g * t / 2) - a g * sin (g * t / 2)) / 2)) G).
Proof.
  replace (rsum (map (tterm a b (t + s)) G) - rsum (map (tterm a b (t - s)) G)) with (rsum (map (tterm a b (t + s)) G) + -1 * rsum (map (tterm a b (t - s)) G)) by ring.
  rewrite <- rsum_scal, <- rsum_plus. apply rsum_ext. intros g _. unfold tterm.
  replace (g * (t + s) / 2) with (g * t / 2 + s * g / 2) by field.
  replace (g * (t - s) / 2) with (g * t / 2 - s * g / 2) by field.
  rewrite cos_plus, cos_minus, sin_plus, sin_minus. field.
Qed.

(** * The gaps found by the code *)
Definition on_grid (x : R) : Prop := exists k : Z, x = IZR k / 10000.
Lemma rint_IZR k : rint (IZR k) = k.
Proof.
  assert (E : Int_part (IZR k) = k).
  { unfold Int_part. rewrite <- (tech_up (IZR k) (k + 1)); [lia| |]; rewrite plus_IZR; lra. }
  unfold rint. rewrite E. replace (IZR k - IZR k) with 0 by ring. destruct (Rlt_dec 0 (1 / 2)); [reflexivity|lra].
Qed.
Lemma round4_grid x : on_grid x -> round4 x = x.
Proof. intros [k ->]. unfold round4. replace (IZR k / 10000 * 10000) with (IZR k) by field. rewrite rint_IZR. reflexivity. Qed.

Inductive increasing : list R -> Prop :=
| inc_nil : increasing []
| inc_cons x l : (forall y, In y l -> x < y) -> increasing l -> increasing (x :: l).
Lemma in_uinsert x l y : In y (uinsert x l) <-> y = x \/ In y l.
Proof.
  induction l as [|z l IH]; simpl; [intuition congruence|].
  destruct (Rlt_dec x z); [simpl; intuition congruence|]. destruct (Req_EM_T x z) as [->|]; [simpl; intuition congruence|]. simpl. rewrite IH. intuition congruence.
Qed.
Lemma inc_uinsert x l : increasing l -> increasing (uinsert x l).
Proof.
  induction 1 as [|z l H H' IH]; simpl; [constructor; [intros ? []|constructor]|].
  destruct (Rlt_dec x z) as [L|L].
  - constructor; [|constructor; assumption]. intros y [<-|Hy]; [exact L|]. specialize (H y Hy). lra.
  - destruct (Req_EM_T x z) as [->|N]; [constructor; assumption|]. constructor; [|exact IH].
    intros y Hy. apply in_uinsert in Hy as [->|Hy]; [lra|apply H; exact Hy].
Qed.
Lemma unique_spec l : increasing (unique l) /\ forall y, In y (unique l) <-> In y l.
Proof.
  induction l as [|x l [I1 I2]]; simpl; [split; [constructor|intuition]|]. split; [apply inc_uinsert; exact I1|].
  intros y. rewrite in_uinsert, I2. intuition congruence.
Qed.
Lemma inc_filter f l : increasing l -> increasing (filter f l).
Proof.
  induction 1 as [|z l H H' IH]; simpl; [constructor|]. destruct (f z); [|exact IH]. constructor; [|exact IH].
  intros y Hy. apply filter_In in Hy as [Hy _]. apply H, Hy.
Qed.
Lemma inc_nodup l : increasing l -> NoDup l.
Proof. induction 1 as [|z l H H' IH]; constructor; [|exact IH]. intro C. specialize (H z C). lra. Qed.

(** The gaps are the distinct positive eigenvalue differences, in increasing order. *)
Theorem C22_gaps : forall spectrum, (forall x y, In x spectrum -> In y spectrum -> on_grid (x - y)) ->
  increasing (spectral_gaps_of spectrum) /\
  forall g, In g (spectral_gaps_of spectrum) <-> 0 < g /\ exists x y, In x spectrum /\ In y spectrum /\ g = x - y.
Proof.
  intros l Hg. split; [apply inc_filter, unique_spec|]. intro g. unfold spectral_gaps_of. rewrite filter_In.
  rewrite (proj2 (unique_spec _)). unfold tril_abs. rewrite in_flat_map. destruct (Rlt_dec 0 g) as [P|P]; [|split; [intros [_ ?]; discriminate|tauto]].
  split.
  - intros [(i & Hi & Hin) _]. split; [exact P|]. apply in_map_iff in Hin as (j & E & Hj). apply in_seq in Hi, Hj.
    destruct (Nat.leb j i); [|rewrite Rabs_R0 in E; lra].
    assert (Ni : In (nth i l 0) l) by (apply nth_In; lia). assert (Nj : In (nth j l 0) l) by (apply nth_In; lia).
    rewrite round4_grid in E by (apply Hg; assumption).
    destruct (Rle_dec 0 (nth j l 0 - nth i l 0)) as [L|L].
    + rewrite Rabs_pos_eq in E by exact L. eauto 6.
    + rewrite Rabs_left in E by lra. exists (nth i l 0), (nth j l 0). repeat split; try assumption. lra.
  - intros [_ (x & y & Hx & Hy & E)]. split; [|reflexivity].
    apply In_nth with (d := 0) in Hx as (i & Hi & Ei). apply In_nth with (d := 0) in Hy as (j & Hj & Ej).
    destruct (le_dec j i) as [L|L].
    + exists i. split; [apply in_seq; lia|]. apply in_map_iff. exists j. split; [|apply in_seq; lia].
      rewrite (proj2 (Nat.leb_le j i) L), Ei, Ej. rewrite round4_grid by (apply Hg; subst; apply nth_In; lia). rewrite Rabs_left; lra.
    + exists j. split; [apply in_seq; lia|]. apply in_map_iff. exists i. split; [|apply in_seq; lia].
      rewrite (proj2 (Nat.leb_le i j)) by lia. rewrite Ei, Ej, round4_grid by (apply Hg; subst; apply nth_In; lia). rewrite Rabs_pos_eq; lra.
Qed.

Lemma gaps_cover spectrum (comps : list (R * (list bool -> C))) : (forall x y, In x spectrum -> In y spectrum -> on_grid (x - y)) ->
  (forall p, In p comps -> In (fst p) spectrum) ->
  forall p q, In p comps -> In q comps -> fst p - fst q = 0 \/ In (Rabs (fst p - fst q)) (spectral_gaps_of spectrum).
Proof.
  intros Hg Hc p q Hp Hq. destruct (Req_dec (fst p - fst q) 0) as [E|N]; [left; exact E|right].
  apply (proj2 (C22_gaps spectrum Hg)). split; [apply Rabs_pos_lt; exact N|].
  destruct (Rle_dec 0 (fst p - fst q)) as [L|L].
  - rewrite Rabs_pos_eq by exact L. exists (fst p), (fst q). auto.
  - rewrite Rabs_left by lra. exists (fst q), (fst p). repeat split; auto. lra.
Qed.

(** * The rules *)
Lemma single_exact G g f E rho name shift : G = [g] -> trig G f -> (forall t, E (shifted rho name t) = f t) ->
  sin (g * shift / 2) <> 0 ->
  is_derive f (rho name) (single_gap_psr E rho name g shift).
Proof.
  intros -> (a0 & a & b & F) HE Hs.
  apply (is_derive_ext (fun t => a0 + rsum (map (tterm a b t) [g]))); [intro; symmetry; apply F|].
  eapply is_derive_ext_loc; [|]. 2: replace (single_gap_psr E rho name g shift) with (rsum (map (fun g => g * ((b g * cos (g * rho name / 2) - a g * sin (g * rho name / 2)) / 2)) [g])); [apply trig_derive|].
  - exists (mkposreal 1 Rlt_0_1). reflexivity.
  - unfold single_gap_psr. rewrite !HE, !F.
    replace (a0 + rsum (map (tterm a b (rho name + shift)) [g]) - (a0 + rsum (map (tterm a b (rho name - shift)) [g])))
      with (rsum (map (tterm a b (rho name + shift)) [g]) - rsum (map (tterm a b (rho name - shift)) [g])) by ring.
    rewrite trig_diff. simpl. replace (shift * g / 2) with (g * shift / 2) by field. field. exact Hs.
Qed.

(** torch.linalg.solve on n x n systems: a solution exactly when the matrix is non-singular. *)
Definition dot (row x : list R) : R := rsum (map (fun p => fst p * snd p) (combine row x)).
Definition square (n : nat) (M : list (list R)) : Prop := length M = n /\ forall row, In row M -> length row = n.
Definition nonsingular (n : nat) (M : list (list R)) : Prop :=
  forall X Y, length X = n -> length Y = n -> (forall row, In row M -> dot row X = dot row Y) -> X = Y.
Definition solver_ok (n : nat) (solve : list (list R) -> list R -> option (list R)) : Prop :=
  forall M F, square n M -> length F = n ->
    (nonsingular n M -> exists X, solve M F = Some X) /\
    (forall X, solve M F = Some X -> nonsingular n M /\ length X = n /\ map (fun row => dot row X) M = F).

Lemma dot_map (f r : R -> R) G : dot (map f G) (map r G) = rsum (map (fun g => f g * r g) G).
Proof. unfold dot. induction G as [|g G IH]; simpl; [reflexivity|]. rewrite <- IH. reflexivity. Qed.
Lemma map_eq_in {A} (f g : A -> R) l : map f l = map g l -> forall x, In x l -> f x = g x.
Proof. induction l as [|a l IH]; simpl; intros H x Hx; [destruct Hx|]. destruct Hx as [<-|Hx]; [congruence|]. apply IH; [congruence|exact Hx]. Qed.

Lemma multi_exact solve gaps shifts f E rho name d : gaps <> [] -> length shifts = length gaps -> solver_ok (length gaps) solve ->
  trig gaps f -> (forall t, E (shifted rho name t) = f t) ->
  multi_gap_with solve E rho name gaps shifts = Some d -> is_derive f (rho name) d.
Proof.
  intros Hne Hl Hs (a0 & a & b & F) HE H. unfold multi_gap_with in H. destruct gaps as [|g0 gr] eqn:Eg; [contradiction|]. rewrite <- Eg in *.
  set (M := map (fun s => map (fun g => 4 * sin (s * g / 2)) gaps) shifts) in *.
  set (Fv := map (fun s => E (shifted rho name (rho name + s)) - E (shifted rho name (rho name - s))) shifts) in *.
  destruct (solve M Fv) as [X|] eqn:ES; [|discriminate].
  assert (Sq : square (length gaps) M).
  { split; [unfold M; rewrite map_length; exact Hl|]. intros row Hr. unfold M in Hr. apply in_map_iff in Hr as (s & <- & _). apply map_length. }
  destruct (Hs M Fv Sq) as [_ HX]; [unfold Fv; rewrite map_length; exact Hl|]. specialize (HX X ES) as (Hns & HlX & HMX).
  set (r := fun g => (b g * cos (g * rho name / 2) - a g * sin (g * rho name / 2)) / 2).
  assert (EX : X = map r gaps).
  { apply Hns; [exact HlX|apply map_length|]. intros row Hr. unfold M in Hr. apply in_map_iff in Hr as (s & <- & Hsin).
    unfold M, Fv in HMX. rewrite map_map in HMX. rewrite (map_eq_in _ _ _ HMX s Hsin). rewrite !HE, !F, dot_map.
    pose proof (trig_diff a b gaps (rho name) s) as TD. unfold r. rewrite <- TD. ring. }
  assert (Ed : d = rsum (map (fun g => g * r g) gaps)).
  { assert (H' : rsum (map (fun p => fst p * snd p) (combine gaps X)) = d) by congruence. rewrite <- H', EX.
    rewrite <- (map_id gaps) at 1. fold (dot (map (fun x => x) gaps) (map r gaps)). apply dot_map. }
  rewrite Ed. apply (is_derive_ext (fun t => a0 + rsum (map (tterm a b t) gaps))); [intro; symmetry; apply F|]. apply trig_derive.
Qed.

(** C21. The expectation of any observable in any state that depends on a parameter through a generator with a
    single spectral gap: the rule returns the partial derivative in that parameter. *)
Lemma C21_single_gap_m : forall solve spectrum prefac g n O comps E rho name,
  (forall x y, In x spectrum -> In y spectrum -> on_grid (x - y)) ->
  (forall p, In p comps -> In (fst p) spectrum) ->
  (forall t, E (shifted rho name t) = expectation n O comps t) ->
  spectral_gaps_of spectrum = [g] -> sin (g * (prefac * (PI / 2)) / 2) <> 0 ->
  exists d, general_psr solve spectrum prefac E rho name = Some d /\
    is_derive (fun t => E (shifted rho name t)) (rho name) d.
Proof.
  intros solve l prefac g n O comps E rho name Hg Hc HE Hl Hs. unfold general_psr. rewrite Hl. eexists. split; [reflexivity|].
  apply (is_derive_ext (expectation n O comps)); [intro; symmetry; apply HE|].
  apply (single_exact [g]); [reflexivity| |exact HE|exact Hs]. apply expectation_trig; [repeat constructor; simpl; tauto|].
  rewrite <- Hl. apply gaps_cover; assumption.
Qed.

(** C22. The same for a generator with several gaps, whenever the rule returns a value. *)
Lemma C22_multi_gap_m : forall solve spectrum prefac n O comps E rho name d,
  (forall x y, In x spectrum -> In y spectrum -> on_grid (x - y)) ->
  (forall p, In p comps -> In (fst p) spectrum) ->
  (forall t, E (shifted rho name t) = expectation n O comps t) ->
  (length (spectral_gaps_of spectrum) <> 1)%nat ->
  solver_ok (length (spectral_gaps_of spectrum)) solve ->
  general_psr solve spectrum prefac E rho name = Some d ->
  is_derive (fun t => E (shifted rho name t)) (rho name) d.
Proof.
  intros solve l prefac n O comps E rho name d Hg Hc HE Hl Hs H.
  apply (is_derive_ext (expectation n O comps)); [intro; symmetry; apply HE|].
  assert (T : trig (spectral_gaps_of l) (expectation n O comps)).
  { apply expectation_trig; [apply inc_nodup, C22_gaps, Hg|]. apply gaps_cover; assumption. }
  unfold general_psr in H. destruct (spectral_gaps_of l) as [|g1 [|g2 r]] eqn:EG; [discriminate H|exfalso; apply Hl; reflexivity|].
  unfold multi_gap_psr in H. eapply multi_exact; [| |exact Hs|exact T|exact HE|exact H]; [discriminate|].
  unfold multi_shifts, linspace. rewrite !map_length, seq_length. reflexivity.
Qed.

(** It returns a value exactly when the system is non-singular. *)
Definition psr_matrix (gaps shifts : list R) : list (list R) := map (fun s => map (fun g => 4 * sin (s * g / 2)) gaps) shifts.
Theorem C22_defined : forall solve spectrum prefac E rho name,
  (2 <= length (spectral_gaps_of spectrum))%nat -> solver_ok (length (spectral_gaps_of spectrum)) solve ->
  ((exists d, general_psr solve spectrum prefac E rho name = Some d) <->
   nonsingular (length (spectral_gaps_of spectrum)) (psr_matrix (spectral_gaps_of spectrum) (multi_shifts prefac (length (spectral_gaps_of spectrum))))).
Proof.
  intros solve l prefac E rho name Hl Hs. unfold general_psr. destruct (spectral_gaps_of l) as [|g1 [|g2 r]] eqn:EG; [simpl in Hl; lia|simpl in Hl; lia|].
  unfold multi_gap_psr, multi_gap_with. set (G := g1 :: g2 :: r) in *. set (sh := multi_shifts prefac (length G)).
  assert (Lsh : length sh = length G) by (unfold sh, multi_shifts, linspace; rewrite !map_length, seq_length; reflexivity).
  change (map (fun s => map (fun g => 4 * sin (s * g / 2)) G) sh) with (psr_matrix G sh).
  match goal with |- context [solve (psr_matrix G sh) ?f] => set (Fv := f) end.
  destruct (Hs (psr_matrix G sh) Fv) as [H1 H2].
  { split; [unfold psr_matrix; rewrite map_length; exact Lsh|]. intros row Hr. apply in_map_iff in Hr as (s & <- & _). apply map_length. }
  { unfold Fv. rewrite map_length. exact Lsh. }
  subst G. cbv iota. split.
  - intros [d Hd]. destruct (solve (psr_matrix (g1 :: g2 :: r) sh) Fv) as [X|] eqn:ES; [|discriminate]. apply (H2 X eq_refl).
  - intros Hn. destruct (H1 Hn) as [X ->]. eexists. reflexivity.
Qed.

(** Time evolutions: the state is a sum of e^(-i t l) v over eigenvalues l of the generator. *)
Definition evolved_by (comps : list (R * (list bool -> C))) (t : R) : list bool -> C :=
  fun r => csum (fun p => (cis (- (t * fst p)) * snd p r)%C) comps.
Lemma evolved_by_double comps t : evolved_by comps t = evolved (map (fun p => (fst p * 2, snd p)) comps) t.
Proof.
  extensionality r. unfold evolved_by, evolved. rewrite csum_map. apply csum_ext. intros p _. simpl. f_equal. f_equal. field.
Qed.
Lemma C22_evolution_m : forall solve arg spectrum n O comps E rho name d,
  (forall x y, In x spectrum -> In y spectrum -> on_grid ((x - y) * 2)) ->
  (forall p, In p comps -> In (fst p) spectrum) ->
  (forall t, E (shifted rho name t) = fst (quad n O (evolved_by comps t))) ->
  (forall g, spectral_gaps_of (map (fun l => l * 2) spectrum) = [g] -> sin (g * (match arg with Some p => 1 / 2 * p | None => 1 / 2 end * (PI / 2)) / 2) <> 0) ->
  solver_ok (length (spectral_gaps_of (map (fun l => l * 2) spectrum))) solve ->
  rule_evolution solve arg spectrum E rho name = Some d ->
  is_derive (fun t => E (shifted rho name t)) (rho name) d.
Proof.
  intros solve arg l n O comps E rho name d Hg Hc HE Hs1 Hs H. unfold rule_evolution in H.
  assert (Hg' : forall x y, In x (map (fun l => l * 2) l) -> In y (map (fun l => l * 2) l) -> on_grid (x - y)).
  { intros x y Hx Hy. apply in_map_iff in Hx as (x' & <- & Hx). apply in_map_iff in Hy as (y' & <- & Hy).
    replace (x' * 2 - y' * 2) with ((x' - y') * 2) by ring. apply Hg; assumption. }
  assert (Hc' : forall p, In p (map (fun p : R * (list bool -> C) => (fst p * 2, snd p)) comps) -> In (fst p) (map (fun l => l * 2) l)).
  { intros p Hp. apply in_map_iff in Hp as (q & <- & Hq). apply in_map_iff. exists (fst q). split; [reflexivity|apply Hc, Hq]. }
  assert (HE' : forall t, E (shifted rho name t) = expectation n O (map (fun p => (fst p * 2, snd p)) comps) t).
  { intro t. rewrite HE, evolved_by_double. reflexivity. }
  destruct (Nat.eq_dec (length (spectral_gaps_of (map (fun l => l * 2) l))) 1) as [E1|N1].
  - destruct (spectral_gaps_of (map (fun l => l * 2) l)) as [|g [|g' r]] eqn:EG; try discriminate E1.
    destruct (C21_single_gap_m solve _ _ g n O _ E rho name Hg' Hc' HE' EG (Hs1 g eq_refl)) as (d' & H' & D).
    rewrite H in H'. injection H' as <-. exact D.
  - eapply C22_multi_gap_m; eassumption.
Qed.

(** * The library's gates *)
Lemma sin_ne_0 x : 0 < x < PI -> sin x <> 0.
Proof. intros [H1 H2]. pose proof (sin_gt_0 x H1 H2). lra. Qed.
Lemma grid_Z k : on_grid (IZR k).
Proof. exists (k * 10000)%Z. rewrite mult_IZR. field. Qed.

Lemma gaps_eq spectrum G : (forall x y, In x spectrum -> In y spectrum -> on_grid (x - y)) -> increasing G ->
  (forall g, In g G <-> 0 < g /\ exists x y, In x spectrum /\ In y spectrum /\ g = x - y) -> spectral_gaps_of spectrum = G.
Proof.
  intros Hg HG HI. destruct (C22_gaps spectrum Hg) as [I1 I2].
  assert (HH : forall g, In g (spectral_gaps_of spectrum) <-> In g G) by (intro g; rewrite I2, HI; reflexivity).
  revert HH I1 HG. generalize (spectral_gaps_of spectrum) as l. clear. intros l. revert G.
  induction l as [|x l IH]; intros [|y G] HH I1 I2.
  - reflexivity.
  - exfalso. apply (HH y). left; reflexivity.
  - exfalso. apply (HH x). left; reflexivity.
  - inversion I1 as [|? ? X1 X2]; subst. inversion I2 as [|? ? Y1 Y2]; subst.
    assert (E : x = y).
    { destruct (proj1 (HH x) (or_introl eq_refl)) as [->|Hx]; [reflexivity|]. destruct (proj2 (HH y) (or_introl eq_refl)) as [->|Hy]; [reflexivity|].
      specialize (X1 y Hy). specialize (Y1 x Hx). lra. }
    subst y. f_equal. apply IH; [|assumption|assumption]. intro g. split; intro Hi.
    + destruct (proj1 (HH g) (or_intror Hi)) as [->|]; [|assumption]. specialize (X1 g Hi). lra.
    + destruct (proj2 (HH g) (or_intror Hi)) as [->|]; [|assumption]. specialize (Y1 g Hi). lra.
Qed.

Ltac inR := simpl; intuition (subst; try lra).
Lemma gaps_rot : spectral_gaps_of spectrum_rot = [2].
Proof.
  apply gaps_eq.
  - intros x y Hx Hy. unfold spectrum_rot in *. simpl in Hx, Hy. destruct Hx as [<- | [<- | []]], Hy as [<- | [<- | []]].
    + replace (-1 - -1) with 0 by ring. apply grid_Z. + replace (-1 - 1) with (-2) by ring. apply grid_Z.
    + replace (1 - -1) with 2 by ring. apply grid_Z. + replace (1 - 1) with 0 by ring. apply grid_Z.
  - constructor; [intros ? []|constructor].
  - intro g. simpl. split.
    + intros [<- | []]. split; [lra|]. exists 1, (-1). repeat split; auto. lra.
    + intros [P (x & y & Hx & Hy & ->)]. left. destruct Hx as [<- | [<- | []]], Hy as [<- | [<- | []]]; lra.
Qed.
Lemma gaps_phase : spectral_gaps_of spectrum_phase = [2].
Proof.
  apply gaps_eq.
  - intros x y Hx Hy. unfold spectrum_phase in *. simpl in Hx, Hy. destruct Hx as [<- | [<- | []]], Hy as [<- | [<- | []]].
    + replace (0 - 0) with 0 by ring. apply grid_Z. + replace (0 - 2) with (-2) by ring. apply grid_Z.
    + replace (2 - 0) with 2 by ring. apply grid_Z. + replace (2 - 2) with 0 by ring. apply grid_Z.
  - constructor; [intros ? []|constructor].
  - intro g. simpl. split.
    + intros [<- | []]. split; [lra|]. exists 2, 0. repeat split; auto. lra.
    + intros [P (x & y & Hx & Hy & ->)]. left. destruct Hx as [<- | [<- | []]], Hy as [<- | [<- | []]]; lra.
Qed.

(** Eigenprojections of the rotations. *)
Definition mlin (c1 : C) (m1 : bool -> bool -> C) (c2 : C) (m2 : bool -> bool -> C) : bool -> bool -> C := fun r c => (c1 * m1 r c + c2 * m2 r c)%C.
Definition half : C := RtoC (1 / 2).
Definition proj_plus (r : rot) : bool -> bool -> C :=
  match r with
  | RX_ => mat2 half half half half
  | RY_ => mat2 half (- Ci * half)%C (Ci * half)%C half
  | RZ_ => mat2 1 0 0 0
  | RPhase => mat2 1 0 0 0
  end.
Definition proj_minus (r : rot) : bool -> bool -> C :=
  match r with
  | RX_ => mat2 half (- half)%C (- half)%C half
  | RY_ => mat2 half (Ci * half)%C (- Ci * half)%C half
  | RZ_ => mat2 0 0 0 1
  | RPhase => mat2 0 0 0 1
  end.
Definition eig_plus (r : rot) : R := match r with RPhase => 0 | _ => 1 end.
Definition eig_minus (r : rot) : R := match r with RPhase => -2 | _ => -1 end.
Lemma rot_spectral r t : rot_mat r t = mlin (cis (- (t * eig_plus r / 2))) (proj_plus r) (cis (- (t * eig_minus r / 2))) (proj_minus r).
Proof.
  assert (E1 : - (t * -1 / 2) = t / 2) by field. assert (E2 : - (t * 1 / 2) = - (t / 2)) by field.
  assert (E3 : - (t * -2 / 2) = t) by field. assert (E4 : - (t * 0 / 2) = 0) by field.
  extensionality a. extensionality b. destruct r, a, b; unfold mlin, proj_plus, proj_minus, eig_plus, eig_minus, rot_mat, mat2, half; rewrite ?E1, ?E2, ?E3, ?E4;
    apply Ceq; simpl; rewrite ?cos_neg, ?sin_neg, ?cos_0, ?sin_0; try field; try ring.
Qed.
Lemma gate1_mlin q c1 m1 c2 m2 : gate1 q (mlin c1 m1 c2 m2) = addop (scaleop c1 (gate1 q m1)) (scaleop c2 (gate1 q m2)).
Proof.
  unfold gate1. rewrite <- !gate_scale, <- gate_add. f_equal. extensionality r. extensionality c. unfold of_mat2, mlin.
  destruct r as [|a [|? ?]]; try ring. destruct c as [|b [|? ?]]; ring.
Qed.
Lemma linear_plus A f g : linear A -> forall c d : C, A (fun x => c * f x + d * g x)%C = (fun x => c * A f x + d * A g x)%C.
Proof. intros [H1 H2] c d. rewrite (H1 (fun x => c * f x)%C (fun x => d * g x)%C), (H2 c f), (H2 d g). reflexivity. Qed.

(** The state after a circuit with one rotation by t, between any operations. *)
Lemma rotated_state n rho b r q psi t :
  amps n (den rho b (gate1 q (rot_mat r t) psi)) =
  evolved [(eig_plus r, amps n (den rho b (gate1 q (proj_plus r) psi))); (eig_minus r, amps n (den rho b (gate1 q (proj_minus r) psi)))] t.
Proof.
  rewrite rot_spectral, gate1_mlin. unfold addop, scaleop. extensionality w. unfold amps at 1.
  rewrite (linear_plus (den rho b) _ _ (loc_linear _ _ (den_loc rho b))). unfold evolved. simpl. unfold amps. ring.
Qed.

(** C21 at the level of circuits: for every rotation gate inside every circuit, every input state and every observable,
    the rule with its default settings and the gate's declared spectrum is the derivative of the expectation. *)
Definition declared (r : rot) : list R := match r with RPhase => spectrum_phase | _ => spectrum_rot end.
Lemma C21_rotation_m : forall solve n O rho0 before after r q psi E rho name,
  (forall t, E (shifted rho name t) = fst (quad n O (amps n (den rho0 after (gate1 q (rot_mat r t) (den rho0 before psi)))))) ->
  exists d, rule_rotation solve None (declared r) E rho name = Some d /\ is_derive (fun t => E (shifted rho name t)) (rho name) d.
Proof.
  intros solve n O rho0 b1 b2 r q psi E rho name HE. unfold rule_rotation.
  assert (HG : spectral_gaps_of (declared r) = [2]) by (destruct r; [apply gaps_rot|apply gaps_rot|apply gaps_rot|apply gaps_phase]).
  unfold general_psr. rewrite HG. eexists. split; [reflexivity|].
  set (comps := [(eig_plus r, amps n (den rho0 b2 (gate1 q (proj_plus r) (den rho0 b1 psi)))); (eig_minus r, amps n (den rho0 b2 (gate1 q (proj_minus r) (den rho0 b1 psi))))]).
  assert (HE' : forall t, E (shifted rho name t) = expectation n O comps t) by (intro t; rewrite HE, rotated_state; reflexivity).
  apply (is_derive_ext (expectation n O comps)); [intro; symmetry; apply HE'|].
  apply (single_exact [2]); [reflexivity| |exact HE'|].
  - apply expectation_trig; [repeat constructor; simpl; tauto|]. intros p p' Hp Hp'. unfold comps in *.
    destruct Hp as [<- | [<- | []]], Hp' as [<- | [<- | []]]; simpl; [left; ring|right|right|left; ring]; left; destruct r; simpl; (rewrite Rabs_pos_eq by lra; lra) || (rewrite Rabs_left by lra; lra).
  - apply sin_ne_0. pose proof PI_RGT_0. lra.
Qed.

(** The same rule in the JAX engine (gap 2, shift pi/2 whatever the gate). *)
Lemma C21_jax_rotation_m : forall n O rho0 before after r q psi E rho name,
  (forall t, E (shifted rho name t) = fst (quad n O (amps n (den rho0 after (gate1 q (rot_mat r t) (den rho0 before psi)))))) ->
  is_derive (fun t => E (shifted rho name t)) (rho name) (jax_psr E rho name).
Proof.
  intros n O rho0 b1 b2 r q psi E rho name HE.
  set (comps := [(eig_plus r, amps n (den rho0 b2 (gate1 q (proj_plus r) (den rho0 b1 psi)))); (eig_minus r, amps n (den rho0 b2 (gate1 q (proj_minus r) (den rho0 b1 psi))))]).
  assert (HE' : forall t, E (shifted rho name t) = expectation n O comps t) by (intro t; rewrite HE, rotated_state; reflexivity).
  apply (is_derive_ext (expectation n O comps)); [intro; symmetry; apply HE'|].
  apply (single_exact [2]); [reflexivity| |exact HE'|].
  - apply expectation_trig; [repeat constructor; simpl; tauto|]. intros p p' Hp Hp'. unfold comps in *.
    destruct Hp as [<- | [<- | []]], Hp' as [<- | [<- | []]]; simpl; [left; ring|right|right|left; ring]; left; destruct r; simpl; (rewrite Rabs_pos_eq by lra; lra) || (rewrite Rabs_left by lra; lra).
  - apply sin_ne_0. pose proof PI_RGT_0. lra.
Qed.

(** * Controlled rotations: two gaps *)
Definition con (cs : list nat) (A : Op) : Op := fun psi x => if forallb x cs then A psi x else RtoC 0.
Definition coff (cs : list nat) : Op := fun psi x => if forallb x cs then RtoC 0 else psi x.
Lemma linear_plus3 A f g h : linear A -> forall c d e : C, A (fun x => c * f x + d * g x + e * h x)%C = (fun x => c * A f x + d * A g x + e * A h x)%C.
Proof.
  intros [H1 H2] c d e. rewrite (H1 (fun x => c * f x + d * g x)%C (fun x => e * h x)%C), (H1 (fun x => c * f x)%C (fun x => d * g x)%C), !H2. reflexivity.
Qed.
Lemma ctrl_rotated_state n rho b cs r q psi t :
  amps n (den rho b (ctrlop cs (gate1 q (rot_mat r t)) psi)) =
  evolved [(0, amps n (den rho b (coff cs psi))); (eig_plus r, amps n (den rho b (con cs (gate1 q (proj_plus r)) psi)));
           (eig_minus r, amps n (den rho b (con cs (gate1 q (proj_minus r)) psi)))] t.
Proof.
  assert (E : ctrlop cs (gate1 q (rot_mat r t)) psi = (fun x => 1 * coff cs psi x + cis (- (t * eig_plus r / 2)) * con cs (gate1 q (proj_plus r)) psi x + cis (- (t * eig_minus r / 2)) * con cs (gate1 q (proj_minus r)) psi x)%C).
  { rewrite rot_spectral, gate1_mlin. extensionality x. unfold ctrlop, coff, con, addop, scaleop. destruct (forallb x cs); ring. }
  rewrite E. extensionality w. unfold amps at 1.
  rewrite (linear_plus3 (den rho b) _ _ _ (loc_linear _ _ (den_loc rho b))). unfold evolved. simpl. unfold amps.
  replace (cis (- (t * 0 / 2))) with (RtoC 1); [ring|]. replace (- (t * 0 / 2)) with 0 by field. apply Ceq; simpl; [rewrite cos_0|rewrite sin_0]; reflexivity.
Qed.

Lemma gaps_mcrot n : spectral_gaps_of (spectrum_mcrot (S (S n))) = [1; 2].
Proof.
  assert (HI : forall x, In x (spectrum_mcrot (S (S n))) <-> x = 0 \/ x = 1 \/ x = -1).
  { intro x. unfold spectrum_mcrot. rewrite in_app_iff. simpl (In x [1; -1]).
    assert (P : exists m, (2 ^ S (S n) - 2 = S m)%nat).
    { exists (2 ^ S (S n) - 3)%nat. pose proof (Nat.pow_nonzero 2 n ltac:(lia)). simpl. lia. }
    destruct P as [m ->]. split.
    - intros [H|[<- | [<- | []]]]; auto. apply repeat_spec in H. auto.
    - intros [-> | [-> | ->]]; [left; left; reflexivity|right; left; reflexivity|right; right; left; reflexivity]. }
  apply gaps_eq.
  - intros x y Hx Hy. apply HI in Hx, Hy. exists (10000 * (if Req_EM_T x 0 then 0 else if Req_EM_T x 1 then 1 else -1) - 10000 * (if Req_EM_T y 0 then 0 else if Req_EM_T y 1 then 1 else -1))%Z.
    rewrite minus_IZR, !mult_IZR.
    destruct (Req_EM_T x 0), (Req_EM_T x 1), (Req_EM_T y 0), (Req_EM_T y 1); destruct Hx as [? | [? | ?]]; destruct Hy as [? | [? | ?]]; try lra.
  - constructor; [simpl; intros y [<- | []]; lra|]. constructor; [intros ? []|constructor].
  - intro g. simpl. split.
    + intros [<- | [<- | []]]; (split; [lra|]).
      * exists 1, 0. rewrite !HI. repeat split; auto. lra.
      * exists 1, (-1). rewrite !HI. repeat split; auto. lra.
    + intros [P (x & y & Hx & Hy & ->)]. apply HI in Hx, Hy. destruct Hx as [-> | [-> | ->]], Hy as [-> | [-> | ->]]; lra.
Qed.

Lemma nonsingular2 a b c d : a * d - b * c <> 0 -> nonsingular 2 [[a; b]; [c; d]].
Proof.
  intros H X Y HX HY HE. destruct X as [|x1 [|x2 [|? ?]]]; try discriminate HX. destruct Y as [|y1 [|y2 [|? ?]]]; try discriminate HY.
  pose proof (HE [a; b] (or_introl eq_refl)) as E1. pose proof (HE [c; d] (or_intror (or_introl eq_refl))) as E2. unfold dot in E1, E2. simpl in E1, E2.
  assert (P1 : (a * d - b * c) * (x1 - y1) = 0).
  { transitivity (d * ((a * x1 + (b * x2 + 0)) - (a * y1 + (b * y2 + 0))) - b * ((c * x1 + (d * x2 + 0)) - (c * y1 + (d * y2 + 0)))); [ring|]. rewrite E1, E2. ring. }
  assert (P2 : (a * d - b * c) * (x2 - y2) = 0).
  { transitivity (a * ((c * x1 + (d * x2 + 0)) - (c * y1 + (d * y2 + 0))) - c * ((a * x1 + (b * x2 + 0)) - (a * y1 + (b * y2 + 0)))); [ring|]. rewrite E1, E2. ring. }
  apply Rmult_integral in P1 as [|P1]; [contradiction|]. apply Rmult_integral in P2 as [|P2]; [contradiction|].
  f_equal; [lra|f_equal; lra].
Qed.
Lemma default_system_12 : nonsingular 2 (psr_matrix [1; 2] (multi_shifts (1 / 2) 2)).
Proof.
  unfold psr_matrix, multi_shifts, linspace. simpl map.
  replace (1 / 2 * (PI / 2 - PI / 4 + 0 * ((PI / 2 + PI / 5 - (PI / 2 - PI / 4)) / (1 + 1 - 1)))) with (2 * (PI / 16)) by field.
  replace (1 / 2 * (PI / 2 - PI / 4 + 1 * ((PI / 2 + PI / 5 - (PI / 2 - PI / 4)) / (1 + 1 - 1)))) with (2 * (7 * PI / 40)) by field.
  set (u := PI / 16). set (v := 7 * PI / 40). replace (2 * u * 1 / 2) with u by field. replace (2 * v * 1 / 2) with v by field.
  replace (2 * u * 2 / 2) with (2 * u) by field. replace (2 * v * 2 / 2) with (2 * v) by field. apply nonsingular2. rewrite !sin_2a.
  replace (4 * sin u * (4 * (2 * sin v * cos v)) - 4 * (2 * sin u * cos u) * (4 * sin v)) with (32 * (sin u * (sin v * (cos v - cos u)))) by ring.
  pose proof PI_RGT_0 as P. assert (U : 0 < u < PI) by (unfold u; lra). assert (V : 0 < v < PI) by (unfold v; lra).
  assert (W : cos v < cos u) by (apply cos_decreasing_1; unfold u, v; lra).
  pose proof (sin_ne_0 u U). pose proof (sin_ne_0 v V). repeat apply Rmult_integral_contrapositive_currified; try assumption; lra.
Qed.

Definition is_pauli_rot (r : rot) : Prop := match r with RPhase => False | _ => True end.
(** Every controlled X, Y or Z rotation with at least one control: no further condition, the default shifts always work. *)
Lemma C22_controlled_rotation_m : forall solve n O rho0 before after cs r q psi E rho name, solver_ok 2 solve -> is_pauli_rot r -> cs <> [] ->
  (forall t, E (shifted rho name t) = fst (quad n O (amps n (den rho0 after (ctrlop cs (gate1 q (rot_mat r t)) (den rho0 before psi)))))) ->
  exists d, rule_rotation solve None (spectrum_mcrot (S (length cs))) E rho name = Some d /\ is_derive (fun t => E (shifted rho name t)) (rho name) d.
Proof.
  intros solve n O rho0 b1 b2 cs r q psi E rho name Hs Hr Hcs HE. destruct cs as [|c0 cs0] eqn:Ecs; [contradiction|]. rewrite <- Ecs in *.
  assert (HG : spectral_gaps_of (spectrum_mcrot (S (length cs))) = [1; 2]) by (rewrite Ecs; apply gaps_mcrot).
  unfold rule_rotation. 
  match type of HE with forall t, _ = fst (quad n O (amps n (den rho0 b2 (ctrlop cs (gate1 q _) ?s)))) => set (comps := [(0, amps n (den rho0 b2 (coff cs s))); (eig_plus r, amps n (den rho0 b2 (con cs (gate1 q (proj_plus r)) s)));
           (eig_minus r, amps n (den rho0 b2 (con cs (gate1 q (proj_minus r)) s)))]) end.
  assert (HE' : forall t, E (shifted rho name t) = expectation n O comps t) by (intro t; rewrite HE, ctrl_rotated_state; reflexivity).
  assert (Hc : forall p, In p comps -> In (fst p) (spectrum_mcrot (S (length cs)))).
  { intros p Hp. unfold comps in Hp. unfold spectrum_mcrot. apply in_or_app.
    assert (P0 : In 0 (repeat 0 (2 ^ S (length cs) - 2))).
    { rewrite Ecs. cbn [length]. pose proof (Nat.pow_nonzero 2 (length cs0) ltac:(lia)). replace (2 ^ S (S (length cs0)) - 2)%nat with (S (2 ^ S (S (length cs0)) - 3)) by (simpl; lia). left; reflexivity. }
    destruct Hp as [<- | [<- | [<- | []]]]; simpl fst; destruct r; simpl in Hr; try contradiction; simpl; auto. }
  assert (Hg : forall x y, In x (spectrum_mcrot (S (length cs))) -> In y (spectrum_mcrot (S (length cs))) -> on_grid (x - y)).
  { assert (HI : forall x, In x (spectrum_mcrot (S (length cs))) -> exists k, x = IZR k).
    { intros x Hx. unfold spectrum_mcrot in Hx. apply in_app_or in Hx as [Hx|[<- | [<- | []]]]; [apply repeat_spec in Hx; exists 0%Z; exact Hx|exists 1%Z; reflexivity|exists (-1)%Z; reflexivity]. }
    intros x y Hx Hy. apply HI in Hx as [k ->]. apply HI in Hy as [k' ->]. rewrite <- minus_IZR. apply grid_Z. }
  destruct (proj2 (C22_defined solve (spectrum_mcrot (S (length cs))) (1 / 2) E rho name ltac:(rewrite HG; simpl; lia) ltac:(rewrite HG; exact Hs))) as [d Hd].
  { rewrite HG. exact default_system_12. }
  exists d. split; [exact Hd|]. eapply C22_multi_gap_m; [exact Hg|exact Hc|exact HE'| | |exact Hd]; rewrite HG; [simpl; lia|exact Hs].
Qed.

(** * The hypotheses can be met *)
Definition cramer2 (M : list (list R)) (F : list R) : option (list R) :=
  match M, F with
  | [[a; b]; [c; d]], [e; f] => if Req_EM_T (a * d - b * c) 0 then None else Some [(d * e - b * f) / (a * d - b * c); (a * f - c * e) / (a * d - b * c)]
  | _, _ => None
  end.
Example C22_solver_exists : solver_ok 2 cramer2.
Proof.
  intros M F [HM HR] HF. destruct M as [|r1 [|r2 [|? ?]]]; try discriminate HM. destruct F as [|e [|f [|? ?]]]; try discriminate HF.
  assert (L1 := HR r1 (or_introl eq_refl)). assert (L2 := HR r2 (or_intror (or_introl eq_refl))).
  destruct r1 as [|a [|b [|? ?]]]; try discriminate L1. destruct r2 as [|c [|d [|? ?]]]; try discriminate L2.
  unfold cramer2. destruct (Req_EM_T (a * d - b * c) 0) as [Z|N].
  - split; [|discriminate]. intros Hn. exfalso.
    destruct (Req_dec a 0) as [Za|Na], (Req_dec b 0) as [Zb|Nb]; subst.
    + destruct (Req_dec c 0) as [Zc|Nc]; subst.
      * assert (HH : [1; 0] = [0; 0]) by (apply Hn; auto; intros row [<- | [<- | []]]; unfold dot; simpl; ring). injection HH. lra.
      * assert (HH : [d; -c] = [0; 0]) by (apply Hn; auto; intros row [<- | [<- | []]]; unfold dot; simpl; ring). injection HH. lra.
    + assert (c = 0) by (apply Rmult_eq_reg_l with b; [lra|exact Nb]). subst.
      assert (HH : [1; 0] = [0; 0]) by (apply Hn; auto; intros row [<- | [<- | []]]; unfold dot; simpl; ring). injection HH. lra.
    + assert (d = 0) by (apply Rmult_eq_reg_l with a; [lra|exact Na]). subst.
      assert (HH : [0; 1] = [0; 0]) by (apply Hn; auto; intros row [<- | [<- | []]]; unfold dot; simpl; ring). injection HH. lra.
    + assert (HH : [b; -a] = [0; 0]) by (apply Hn; auto; intros row [<- | [<- | []]]; unfold dot; simpl; [ring|lra]). injection HH. lra.
  - split; [eexists; reflexivity|]. intros X HX. assert (EX : [(d * e - b * f) / (a * d - b * c); (a * f - c * e) / (a * d - b * c)] = X) by congruence. subst X. clear HX.
    split; [apply nonsingular2; exact N|]. split; [reflexivity|]. unfold dot. simpl. f_equal; [field; exact N|]. f_equal. field. exact N.
Qed.
(** A two-qubit circuit H, CRX(t), H with the observable Z on qubit 0. *)
Example C22_crx_case : exists d, rule_rotation cramer2 None (spectrum_mcrot 2)
   (fun p => fst (quad 2 (fun r c => if eqbits r c then (if nth 0 r false then RtoC (-1) else RtoC 1) else RtoC 0)
       (amps 2 (den p (BPrim PH 0) (ctrlop [0%nat] (gate1 1 (rot_mat RX_ (p "x"%string))) (den p (BPrim PH 0) (ket [0; 1]%nat [false; false]))))))) (fun _ => 1) "x"%string = Some d /\
   is_derive (fun t => fst (quad 2 (fun r c => if eqbits r c then (if nth 0 r false then RtoC (-1) else RtoC 1) else RtoC 0)
       (amps 2 (den (fun _ => 1) (BPrim PH 0) (ctrlop [0%nat] (gate1 1 (rot_mat RX_ t)) (den (fun _ => 1) (BPrim PH 0) (ket [0; 1]%nat [false; false]))))))) 1 d.
Proof.
  match goal with |- exists d, rule_rotation cramer2 None _ ?E ?rho ?nm = Some d /\ is_derive ?f _ d =>
    destruct (C22_controlled_rotation_m cramer2 2 (fun r c => if eqbits r c then (if nth 0 r false then RtoC (-1) else RtoC 1) else RtoC 0) (fun _ => 1) (BPrim PH 0) (BPrim PH 0) [0%nat] RX_ 1 (ket [0; 1]%nat [false; false]) E rho nm C22_solver_exists I ltac:(discriminate) ltac:(intro t; reflexivity)) as (d & H1 & H2)
  end.
  exists d. split; [exact H1|exact H2].
Qed.
Example C21_rx_case : exists d, rule_rotation cramer2 None spectrum_rot
   (fun p => fst (quad 1 (fun r c => if eqbits r c then (if nth 0 r false then RtoC (-1) else RtoC 1) else RtoC 0)
       (amps 1 (gate1 0 (rot_mat RX_ (p "x"%string)) (ket [0]%nat [false]))))) (fun _ => 1) "x"%string = Some d /\ d = - sin 1.
Proof.
  eexists. split; [unfold rule_rotation, general_psr; rewrite gaps_rot; reflexivity|].
  unfold single_gap_psr. set (O := fun r c : list bool => if eqbits r c then (if nth 0 r false then RtoC (-1) else RtoC 1) else RtoC 0).
  assert (HF : forall t, fst (quad 1 O (amps 1 (gate1 0 (rot_mat RX_ t) (ket [0]%nat [false])))) = cos t).
  { intro t. unfold quad, amps, gate1, gate, O, ket. simpl. replace (cos t) with (cos (2 * (t / 2))) by (f_equal; field). rewrite cos_2a. ring. }
  cbv beta. unfold shifted. rewrite String.eqb_refl. rewrite !HF. rewrite cos_plus, cos_minus.
  replace (2 * (1 / 2 * (PI / 2)) / 2) with (1 / 2 * (PI / 2)) by field. field.
  pose proof PI_RGT_0. apply sin_ne_0. lra.
Qed.

(** * Findings *)
(** Generators without a gap (a multiple of the identity): the derivative is zero but the rule fails. *)
Theorem C22_no_gap_refuted : exists spectrum n O comps, (forall p, In p comps -> In (fst p) spectrum) /\
  (forall t, is_derive (expectation n O comps) t 0) /\
  forall solve prefac E rho name, general_psr solve spectrum prefac E rho name = None.
Proof.
  exists [1; 1], 1%nat, (fun r c => if eqbits r c then RtoC 1 else RtoC 0), [(1, fun _ => RtoC 1)].
  split; [intros p [<- | []]; left; reflexivity|].
  assert (T : trig [] (expectation 1 (fun r c => if eqbits r c then RtoC 1 else RtoC 0) [(1, fun _ => RtoC 1)])).
  { apply expectation_trig; [constructor|]. intros p q [<- | []] [<- | []]. left. ring. }
  split.
  - intro t. destruct T as (a0 & a & b & F). apply (is_derive_ext (fun t => a0 + rsum (map (tterm a b t) []))); [intro; symmetry; apply F|]. apply (trig_derive a0 a b [] t).
  - intros. assert (HG : spectral_gaps_of [1; 1] = []).
    { apply gaps_eq; [|constructor|].
      - intros x y [<- | [<- | []]] [<- | [<- | []]]; replace (1 - 1) with 0 by ring; apply grid_Z.
      - intro g. split; [intros []|]. intros [P (x & y & [<- | [<- | []]] & [<- | [<- | []]] & ->)]; lra. }
    unfold general_psr. rewrite HG. reflexivity.
Qed.
(** Gaps are rounded to four decimals: a gap of 1/100000 is taken to be zero and the rule fails although the derivative is not zero. *)
Theorem C22_rounding_refuted : exists spectrum n O comps d, (forall p, In p comps -> In (fst p) spectrum) /\
  is_derive (expectation n O comps) 0 d /\ d <> 0 /\
  forall solve prefac E rho name, general_psr solve spectrum prefac E rho name = None.
Proof.
  exists [0; 1 / 100000], 1%nat, (fun r c => match r, c with [false], [true] => (- Ci)%C | [true], [false] => Ci | _, _ => RtoC 0 end).
  exists [(0, fun r => match r with [false] => RtoC 1 | _ => RtoC 0 end); (1 / 100000, fun r => match r with [true] => RtoC 1 | _ => RtoC 0 end)], (- (1 / 100000)).
  split; [intros p [<- | [<- | []]]; simpl; auto|]. split; [|split; [lra|]].
  - apply (is_derive_ext (fun t => - 2 * sin (t * (1 / 100000) / 2))).
    + intro t. unfold expectation, quad, evolved. simpl.
      replace (- (t * 0 / 2)) with 0 by field. rewrite cos_0, sin_0, cos_neg, sin_neg. match goal with |- ?a = ?b => change (@eq R a b) end. ring.
    + auto_derive; [exact I|]. match goal with |- ?a = ?b => change (@eq R a b) end. unfold Rdiv. rewrite !Rmult_0_l, cos_0. field.
  - intros. assert (HR : forall x, - (1 / 2) < x < 1 / 2 -> rint x = 0%Z).
    { intros x [A B]. unfold rint. destruct (Rle_dec 0 x) as [P|P].
      - assert (E0 : Int_part x = 0%Z) by (unfold Int_part; rewrite <- (tech_up x 1); [reflexivity|lra|lra]). rewrite E0.
        destruct (Rlt_dec (x - 0) (1 / 2)); [reflexivity|lra].
      - assert (E0 : Int_part x = (-1)%Z) by (unfold Int_part; rewrite <- (tech_up x 0); [reflexivity|lra|lra]). rewrite E0.
        destruct (Rlt_dec (x - -1) (1 / 2)); [lra|]. destruct (Rlt_dec (1 / 2) (x - -1)); [reflexivity|lra]. }
    assert (HG : spectral_gaps_of [0; 1 / 100000] = []).
    { unfold spectral_gaps_of. assert (HT : forall y, In y (tril_abs [0; 1 / 100000]) -> y = 0).
      { intros y Hy. unfold tril_abs in Hy. simpl in Hy. unfold round4 in Hy.
        rewrite !HR in Hy by lra. replace (0 / 10000) with 0 in Hy by field. rewrite Rabs_R0 in Hy. intuition. }
      destruct (filter _ _) as [|g r] eqn:EF; [reflexivity|]. exfalso.
      assert (Hin : In g (g :: r)) by (left; reflexivity). rewrite <- EF in Hin. apply filter_In in Hin as [H1 H2]. rewrite (proj2 (unique_spec _)) in H1.
      apply HT in H1. subst g. destruct (Rlt_dec 0 0); [lra|discriminate H2]. }
    unfold general_psr. rewrite HG. reflexivity.
Qed.
(** Default settings divide by zero for an evolution under a generator with eigenvalues -2 and 2 (for instance 2 Z). *)
Theorem C21_zero_denominator_refuted : exists spectrum g, spectral_gaps_of (map (fun l => l * 2) spectrum) = [g] /\ sin (g * (1 / 2 * (PI / 2)) / 2) = 0.
Proof.
  exists [-2; 2], 8. split.
  - apply gaps_eq.
    + intros x y Hx Hy. simpl in Hx, Hy. destruct Hx as [<- | [<- | []]], Hy as [<- | [<- | []]].
      * replace (-2 * 2 - -2 * 2) with 0 by ring. apply grid_Z. * replace (-2 * 2 - 2 * 2) with (-8) by ring. apply grid_Z.
      * replace (2 * 2 - -2 * 2) with 8 by ring. apply grid_Z. * replace (2 * 2 - 2 * 2) with 0 by ring. apply grid_Z.
    + constructor; [intros ? []|constructor].
    + intro g. simpl. split.
      * intros [<- | []]. split; [lra|]. exists (2 * 2), (-2 * 2). repeat split; auto. lra.
      * intros [P (x & y & Hx & Hy & ->)]. left. destruct Hx as [<- | [<- | []]], Hy as [<- | [<- | []]]; lra.
  - replace (8 * (1 / 2 * (PI / 2)) / 2) with PI by field. apply sin_PI.
Qed.
(** The JAX engine's fixed gap is wrong for controlled rotations. *)
Lemma C21_jax_refuted_m : exists O psi E rho name d,
  (forall t, E (shifted rho name t) = fst (quad 2 O (amps 2 (ctrlop [0%nat] (gate1 1 (rot_mat RX_ t)) psi)))) /\
  is_derive (fun t => E (shifted rho name t)) (rho name) d /\ jax_psr E rho name <> d.
Proof.
  set (O := fun r c : list bool => match r, c with [false; false], [true; false] => (- Ci)%C | [true; false], [false; false] => Ci | _, _ => RtoC 0 end).
  exists O, (fun _ => RtoC 1), (fun p => fst (quad 2 O (amps 2 (ctrlop [0%nat] (gate1 1 (rot_mat RX_ (p "x"%string))) (fun _ => RtoC 1))))), (fun _ => 0), "x"%string, (-1).
  assert (HF : forall t, fst (quad 2 O (amps 2 (ctrlop [0%nat] (gate1 1 (rot_mat RX_ t)) (fun _ => RtoC 1)))) = - 2 * sin (t / 2)).
  { intro t. unfold quad, amps, ctrlop, gate1, gate, O. simpl. ring. }
  split; [intro t; reflexivity|]. split.
  - apply (is_derive_ext (fun t => - 2 * sin (t / 2))); [intro t; symmetry; apply HF|].
    auto_derive; [exact I|]. match goal with |- ?a = ?b => change (@eq R a b) end. unfold Rdiv. rewrite !Rmult_0_l, cos_0. field.
  - unfold jax_psr, single_gap_psr. cbv beta. rewrite !HF. unfold shifted. rewrite String.eqb_refl.
    replace ((0 + PI / 2) / 2) with (PI / 4) by field. replace ((0 - PI / 2) / 2) with (- (PI / 4)) by field. replace (2 * (PI / 2) / 2) with (PI / 2) by field.
    rewrite sin_neg, sin_PI2, sin_PI4. intro H. assert (S2 : 1 / sqrt 2 = 1 / 2) by lra.
    assert (P : 0 < sqrt 2) by (apply sqrt_lt_R0; lra).
    assert (Q : sqrt 2 = 2) by (apply (f_equal Rinv) in S2; replace (/ (1 / sqrt 2)) with (sqrt 2) in S2 by (field; lra); lra).
    pose proof (sqrt_sqrt 2 ltac:(lra)). rewrite Q in *. lra.
Qed.

(** * The statements with the independent notion of setting one parameter *)
Lemma shifted_def : shifted = with_param.
Proof.
  apply functional_extensionality; intro rho. apply functional_extensionality; intro name. apply functional_extensionality; intro v.
  apply functional_extensionality; intro k. unfold shifted, with_param. destruct (string_dec k name) as [->|N]; [rewrite String.eqb_refl; reflexivity|].
  destruct (String.eqb_spec k name); [contradiction|reflexivity].
Qed.
Theorem C21_single_gap : forall solve spectrum prefac g n O comps E rho name,
  (forall x y, In x spectrum -> In y spectrum -> on_grid (x - y)) ->
  (forall p, In p comps -> In (fst p) spectrum) ->
  (forall t, E (with_param rho name t) = expectation n O comps t) ->
  spectral_gaps_of spectrum = [g] -> sin (g * (prefac * (PI / 2)) / 2) <> 0 ->
  exists d, general_psr solve spectrum prefac E rho name = Some d /\
    is_derive (fun t => E (with_param rho name t)) (rho name) d.
Proof. rewrite <- shifted_def. exact C21_single_gap_m. Qed.
Theorem C22_multi_gap : forall solve spectrum prefac n O comps E rho name d,
  (forall x y, In x spectrum -> In y spectrum -> on_grid (x - y)) ->
  (forall p, In p comps -> In (fst p) spectrum) ->
  (forall t, E (with_param rho name t) = expectation n O comps t) ->
  (length (spectral_gaps_of spectrum) <> 1)%nat ->
  solver_ok (length (spectral_gaps_of spectrum)) solve ->
  general_psr solve spectrum prefac E rho name = Some d ->
  is_derive (fun t => E (with_param rho name t)) (rho name) d.
Proof. rewrite <- shifted_def. exact C22_multi_gap_m. Qed.
Theorem C22_evolution : forall solve arg spectrum n O comps E rho name d,
  (forall x y, In x spectrum -> In y spectrum -> on_grid ((x - y) * 2)) ->
  (forall p, In p comps -> In (fst p) spectrum) ->
  (forall t, E (with_param rho name t) = fst (quad n O (evolved_by comps t))) ->
  (forall g, spectral_gaps_of (map (fun l => l * 2) spectrum) = [g] -> sin (g * (match arg with Some p => 1 / 2 * p | None => 1 / 2 end * (PI / 2)) / 2) <> 0) ->
  solver_ok (length (spectral_gaps_of (map (fun l => l * 2) spectrum))) solve ->
  rule_evolution solve arg spectrum E rho name = Some d ->
  is_derive (fun t => E (with_param rho name t)) (rho name) d.
Proof. rewrite <- shifted_def. exact C22_evolution_m. Qed.
Theorem C21_rotation : forall solve n O rho0 before after r q psi E rho name,
  (forall t, E (with_param rho name t) = fst (quad n O (amps n (den rho0 after (gate1 q (rot_mat r t) (den rho0 before psi)))))) ->
  exists d, rule_rotation solve None (declared r) E rho name = Some d /\ is_derive (fun t => E (with_param rho name t)) (rho name) d.
Proof. rewrite <- shifted_def. exact C21_rotation_m. Qed.
Theorem C21_jax_rotation : forall n O rho0 before after r q psi E rho name,
  (forall t, E (with_param rho name t) = fst (quad n O (amps n (den rho0 after (gate1 q (rot_mat r t) (den rho0 before psi)))))) ->
  is_derive (fun t => E (with_param rho name t)) (rho name) (jax_psr E rho name).
Proof. rewrite <- shifted_def. exact C21_jax_rotation_m. Qed.
Theorem C22_controlled_rotation : forall solve n O rho0 before after cs r q psi E rho name, solver_ok 2 solve -> is_pauli_rot r -> cs <> [] ->
  (forall t, E (with_param rho name t) = fst (quad n O (amps n (den rho0 after (ctrlop cs (gate1 q (rot_mat r t)) (den rho0 before psi)))))) ->
  exists d, rule_rotation solve None (spectrum_mcrot (S (length cs))) E rho name = Some d /\ is_derive (fun t => E (with_param rho name t)) (rho name) d.
Proof. rewrite <- shifted_def. exact C22_controlled_rotation_m. Qed.
Theorem C21_jax_refuted : exists O psi E rho name d,
  (forall t, E (with_param rho name t) = fst (quad 2 O (amps 2 (ctrlop [0%nat] (gate1 1 (rot_mat RX_ t)) psi)))) /\
  is_derive (fun t => E (with_param rho name t)) (rho name) d /\ jax_psr E rho name <> d.
Proof. rewrite <- shifted_def. exact C21_jax_refuted_m. Qed.
Print Assumptions C21_single_gap.
Print Assumptions C21_rotation.
Print Assumptions C21_jax_rotation.
Print Assumptions C21_zero_denominator_refuted.
Print Assumptions C21_jax_refuted.
Print Assumptions C22_gaps.
Print Assumptions C22_multi_gap.
Print Assumptions C22_defined.
Print Assumptions C22_evolution.
Print Assumptions C22_controlled_rotation.
Print Assumptions C22_no_gap_refuted.
Print Assumptions C22_rounding_refuted.
